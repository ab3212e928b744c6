(** PropsPrint: property C71: what printing a matrix shows. *)
From Verif Require Import Base Index IndexSpec IndexFacts Outcome Sched Async Arith Launch Vector PartitionSpec
  Matrix MatrixSpec MatrixFacts PropsMatrix
  StencilSpec StencilSize StencilSizeFacts StencilFill StencilFillFacts StencilLaunch StencilCreate ExampleSystems PropsStencil PropsConvolution Print.
Set Implicit Arguments.

(** ** C71.  Printing goes through the stored entries in storage order.  Each line shows the position, the stored value, the stored
    column and a row the entry belongs to (CSR with overlapping row intervals: the last such row).  A CSR print aborts
    exactly when some stored entry lies in no row's interval, after the lines of the entries before the first such entry. *)
Theorem C71_print : forall (T : Type) (lg : legion) (m : matrix T),
  let lines := fst (print_matrix lg m) in
  let ended := snd (print_matrix lg m) in
  (ended = true <-> match m with COO _ => True | CSR c => rows_cover lg c end) /\
  (ended = true -> map (@l_position T) lines = positions m) /\
  (ended = false -> exists before kp after, positions m = before ++ kp :: after /\ map (@l_position T) lines = before /\
     match m with COO _ => False | CSR c => forall r, In r (is_points lg (cs_rows c)) -> contains (cs_rowptr c r) kp = false end) /\
  (forall l, In l lines -> l_entry l = value m (l_position l) /\ l_col l = PropsMatrix.column m (l_position l) /\ in_row m (l_row l) (l_position l) = true /\
     match m with
     | COO _ => True
     | CSR c => exists l1 l2, is_points lg (cs_rows c) = l1 ++ l_row l :: l2 /\ forall r, In r l2 -> contains (cs_rowptr c r) (l_position l) = false
     end).
Proof.
  intros T lg [c|c]; cbn [print_matrix fst snd positions].
  - split; [split; auto|]. split; [intros _; unfold coo_print; rewrite map_map; apply map_id|]. split; [discriminate|].
    intros l H. unfold coo_print in H. apply in_map_iff in H. destruct H as [kp [<- H]]. cbn. destruct (point_eq_dec _ _); [auto|congruence].
  - set (rows := is_points lg (cs_rows c)). unfold rows_cover. fold rows. generalize (cs_kpts c) as kpts. intros kpts.
    induction kpts as [|kp kpts IH]; [cbn; split; [split; [intros _ kp []|reflexivity]|]; split; [reflexivity|]; split; [discriminate|intros l []]|].
    cbn [csr_print_loop]. assert (S := csr_find_row_spec (cs_rowptr c) rows kp). destruct (csr_find_row (cs_rowptr c) rows kp) as [row|].
    + destruct S as (l1 & l2 & E & Hc & Hl).
      destruct (csr_print_loop c rows kpts) as [ls ok] eqn:EL. cbn [fst snd] in *. destruct IH as (H1 & H2 & H3 & H4).
      split; [|split; [|split]].
      * rewrite H1. split; [intros H k [<-|Hk]; [exists row; split; [rewrite E; apply in_elt|exact Hc]|apply H; exact Hk]|intros H k Hk; apply H; right; exact Hk].
      * intros ->. cbn [map l_position]. f_equal. apply H2. reflexivity.
      * intros ->. destruct (H3 eq_refl) as (before & k & after & -> & <- & HN). exists (kp :: map (@l_position T) ls), k, after. split; [reflexivity|]. split; [reflexivity|exact HN].
      * intros l [<-|Hl']; [cbn [l_entry l_position l_col l_row]; cbn [value PropsMatrix.column in_row]; repeat split; [exact Hc|exists l1, l2; split; [exact E|exact Hl]]|apply H4; exact Hl'].
    + cbn [fst snd]. split; [split; [discriminate|]|].
      * intros H. destruct (H kp (or_introl eq_refl)) as [r [Hr Hc]]. rewrite (S r Hr) in Hc. discriminate.
      * split; [discriminate|]. split; [|intros l []]. intros _. exists [], kp, kpts. split; [reflexivity|]. split; [reflexivity|exact S].
Qed.

(** With well-formed row pointers the lines are the matrix's (row, column, value) triples in storage order. *)
Theorem C71_print_triples : forall (T : Type) (lg : legion) (m : matrix T),
  legion_ok lg -> matrix_ok lg m -> match m with COO _ => True | CSR c => rows_cover lg c end ->
  map (fun l => (l_row l, l_col l, l_entry l)) (fst (print_matrix lg m)) = triples lg m.
Proof.
  intros T lg [c|c] Hlg Hok Hcov; cbn [print_matrix fst triples].
  - unfold coo_print. rewrite map_map. reflexivity.
  - cbn [matrix_ok] in Hok. unfold rows_disjoint, rows_cover in *. assert (Hnd := proj1 Hlg (cs_rows c)). set (rows := is_points lg (cs_rows c)) in *.
    revert Hok Hcov. generalize (cs_kpts c) as kpts. induction kpts as [|kp kpts IH]; intros Hok Hcov; [reflexivity|].
    cbn [csr_print_loop flat_map]. assert (S := csr_find_row_spec (cs_rowptr c) rows kp). destruct (csr_find_row (cs_rowptr c) rows kp) as [row|].
    + destruct S as (l1 & l2 & E & Hc & Hl). destruct (csr_print_loop c rows kpts) as [ls ok] eqn:EL. cbn [fst map l_row l_col l_entry].
      assert (F : filter (fun r => contains (cs_rowptr c r) kp) rows = [row]).
      { assert (Hr : In row rows) by (rewrite E; apply in_elt).
        assert (Hu : forall r, In r rows -> contains (cs_rowptr c r) kp = true -> r = row) by (intros r H1 H2; apply (Hok kp r row); [left; reflexivity|exact H1|exact Hr|exact H2|exact Hc]).
        rewrite E in *. rewrite filter_app. cbn [filter]. rewrite Hc.
        assert (N1 : filter (fun r => contains (cs_rowptr c r) kp) l1 = []).
        { apply filter_none. intros r Hr1. destruct (contains (cs_rowptr c r) kp) eqn:Ec; [|reflexivity]. exfalso.
          assert (r = row) by (apply Hu; [apply in_or_app; left; exact Hr1|exact Ec]). subst r. apply NoDup_remove_2 in Hnd. apply Hnd, in_or_app. left. exact Hr1. }
        assert (N2 : filter (fun r => contains (cs_rowptr c r) kp) l2 = []) by (apply filter_none; exact Hl).
        rewrite N1, N2. reflexivity. }
      rewrite F. cbn [map app]. f_equal. rewrite <- (IH (fun k r1 r2 H => Hok k r1 r2 (or_intror H)) (fun k H => Hcov k (or_intror H))). reflexivity.
    + exfalso. destruct (Hcov kp (or_introl eq_refl)) as [r [Hr Hc]]. rewrite (S r Hr) in Hc. discriminate.
Qed.

Lemma nth_ext_error X (l1 l2 : list X) : (forall k, nth_error l1 k = nth_error l2 k) -> l1 = l2.
Proof.
  revert l2. induction l1 as [|a l1 IH]; intros [|c l2] H; [reflexivity|specialize (H 0); discriminate|specialize (H 0); discriminate|].
  assert (E := H 0). cbn in E. injection E as <-. f_equal. apply IH. intros k. exact (H (S k)).
Qed.
Lemma nth_seq_error a n k : k < n -> nth_error (seq a n) k = Some (a + k).
Proof.
  revert a k. induction n as [|n IH]; intros a [|k] H; cbn [seq nth_error]; [lia|lia|f_equal; lia|]. rewrite IH by lia. f_equal. lia.
Qed.
Lemma nth_combine_error X Y (l1 : list X) (l2 : list Y) k a c : nth_error l1 k = Some a -> nth_error l2 k = Some c -> nth_error (combine l1 l2) k = Some (a, c).
Proof.
  revert l2 k. induction l1 as [|x l1 IH]; intros [|y l2] [|k] H1 H2; cbn in *; try discriminate; [congruence|]. apply IH; assumption.
Qed.
(** The whole printout of a stencil matrix: one line per stored entry, position k showing the k-th triple of the stencil in storage order
    (by row, then column, then value), whatever the storage format, the pieces and the schedule that built it. *)
Lemma stencil_print_at : forall (T : Type) (A : arith T) (ltT : T -> T -> bool) (o : IndexOrder) (b : rect) (offs : list (point * T))
    (lg : legion) (rows : nat) (linear : bool) (m : matrix T),
  lo b <> [] -> nonempty_box b -> offsets_dim b offs -> legion_ok lg -> grid_space linear o b (is_points lg rows) ->
  stencil_matrix A ltT o b offs rows linear m ->
  exists sorted, std_sort ltT o offs sorted /\ snd (print_matrix lg m) = true /\
    fst (print_matrix lg m) = map (fun kt => mk_line [Z.of_nat (fst kt)] (snd (snd kt)) (stored linear o b (fst (fst (snd kt)))) (stored linear o b (snd (fst (snd kt)))))
      (combine (seq 0 (length (stencil_contents o b sorted))) (stencil_contents o b sorted)).
Proof.
  intros T A ltT o b offs lg rows linear m Hlo Hn Hd Hlg G Hm.
  destruct (stencil_matrix_facts Hlo Hn Hd Hm) as (sorted & Hs & Hpos & Hrows & Hk). exists sorted. split; [exact Hs|].
  assert (P := C71_print lg m). cbn zeta in P. destruct P as (P1 & P2 & _ & P4).
  set (cs := stencil_contents o b sorted) in *.
  assert (Hpos' : positions m = map (fun k => [Z.of_nat k]) (seq 0 (length cs))) by (rewrite Hpos; unfold kernel_points; rewrite Nat2Z.id; reflexivity).
  assert (Hend : snd (print_matrix lg m) = true).
  { apply P1. destruct m as [c|c]; [exact I|]. intros kp Hkp. change (In kp (positions (CSR c))) in Hkp. rewrite Hpos' in Hkp.
    apply in_map_iff in Hkp. destruct Hkp as [k [<- Hkk]]. apply in_seq in Hkk.
    destruct (nth_error cs k) as [[[r c0] e]|] eqn:Ek; [|apply nth_error_None in Ek; lia].
    destruct (Hk k r c0 e Ek) as (_ & _ & R). destruct (@contents_in T o b Hn sorted k r c0 e Ek) as [Hr _].
    exists (stored linear o b r). split; [rewrite Hrows; apply G; exists r; auto|]. specialize (R r Hr). cbn [in_row] in R. rewrite R. destruct (point_eq_dec r r); congruence. }
  split; [exact Hend|]. specialize (P2 Hend).
  assert (Row : forall k r c0 e l, nth_error cs k = Some (r, c0, e) -> In l (fst (print_matrix lg m)) -> l_position l = [Z.of_nat k] ->
     l = mk_line [Z.of_nat k] e (stored linear o b r) (stored linear o b c0)).
  { intros k r c0 e l Ek Hl Ep. destruct (P4 l Hl) as (E1 & E2 & E3 & E4). destruct (Hk k r c0 e Ek) as (C1 & C2 & R).
    destruct (@contents_in T o b Hn sorted k r c0 e Ek) as [Hr _]. rewrite Ep in *.
    assert (El : l_row l = stored linear o b r).
    { destruct m as [c|c].
      - cbn [in_row] in E3. specialize (R r Hr). cbn [in_row] in R. destruct (point_eq_dec r r) as [_|]; [|congruence].
        destruct (point_eq_dec (co_row c [Z.of_nat k]) (stored linear o b r)) as [Q|]; [|discriminate].
        destruct (point_eq_dec (co_row c [Z.of_nat k]) (l_row l)); [congruence|discriminate].
      - destruct E4 as (l1 & l2 & E4 & _). assert (I4 : In (l_row l) (is_points lg rows)) by (rewrite <- Hrows, E4; apply in_elt).
        apply G in I4. destruct I4 as [p [Hp Er]]. rewrite Er in *. specialize (R p Hp). rewrite E3 in R. destruct (point_eq_dec r p); [congruence|discriminate]. }
    destruct l as [lp le lr lc]. cbn [l_position l_entry l_row l_col] in *. congruence. }
  clear P1 P4 Hend Hm. assert (Hlen : length (fst (print_matrix lg m)) = length cs) by (rewrite <- (map_length (@l_position T)), P2, Hpos', map_length, seq_length; reflexivity).
  apply nth_ext_error. intros k.
  destruct (nth_error cs k) as [[[r c0] e]|] eqn:Ek.
  - assert (Hkl : k < length cs) by (apply nth_error_Some; congruence).
    destruct (nth_error (fst (print_matrix lg m)) k) as [l|] eqn:El; [|apply nth_error_None in El; lia].
    assert (Ep : l_position l = [Z.of_nat k]).
    { assert (X := map_nth_error (@l_position T) _ _ El). rewrite P2, Hpos' in X. rewrite (map_nth_error (fun k => [Z.of_nat k]) k (seq 0 (length cs)) (d := k)) in X; [congruence|].
      apply nth_seq_error. exact Hkl. }
    rewrite (Row k r c0 e l Ek (nth_error_In _ _ El) Ep). symmetry. erewrite map_nth_error; [|apply nth_combine_error; [apply nth_seq_error; exact Hkl|exact Ek]]. reflexivity.
  - transitivity (@None (line T)); [apply nth_error_None|symmetry; apply nth_error_None; rewrite map_length, combine_length, seq_length]; apply nth_error_None in Ek; lia.
Qed.
Theorem C71_stencil_print : forall (T : Type) (A : arith T) (ltT : T -> T -> bool) (o : IndexOrder) (b : rect) (offs : list (point * T))
    (lg : legion) (rows : nat) (linear : bool) (m : matrix T),
  lo b <> [] -> nonempty_box b -> offsets_dim b offs -> legion_ok lg -> grid_space linear o b (is_points lg rows) ->
  stencil_matrix A ltT o b offs rows linear m ->
  snd (print_matrix lg m) = true /\
  exists contents, Permutation contents (map triple_of (in_bounds_pairs b offs)) /\ StronglySorted (triple_before ltT o) contents /\
    length (fst (print_matrix lg m)) = length contents /\
    forall k r c e, nth_error contents k = Some (r, c, e) ->
      nth_error (fst (print_matrix lg m)) k = Some (mk_line [Z.of_nat k] e (stored linear o b r) (stored linear o b c)).
Proof.
  intros T A ltT o b offs lg rows linear m Hlo Hn Hd Hlg G Hm.
  destruct (stencil_print_at Hlo Hn Hd Hlg G Hm) as (sorted & Hs & He & Hl). split; [exact He|].
  exists (stencil_contents o b sorted). assert (Hwf := nonempty_wf _ Hn).
  split; [apply stencil_contents_perm; [exact Hwf|apply Hs]|]. split; [exact (@stencil_contents_sorted T ltT o b offs sorted Hwf Hd Hs)|].
  split; [rewrite Hl, map_length, combine_length, seq_length; lia|].
  intros k r c e Hk. rewrite Hl. erewrite map_nth_error; [|apply nth_combine_error; [apply nth_seq_error; apply nth_error_Some; congruence|exact Hk]]. reflexivity.
Qed.
(** ... so COO and CSR versions of the same stencil, whatever the order of the offset list, the pieces and the schedules, print the same. *)
Theorem C71_formats_print_alike : forall (T : Type) (A : arith T) (ltT : T -> T -> bool) (o : IndexOrder) (b : rect) (offs1 offs2 : list (point * T))
    (lg : legion) (rows1 rows2 : nat) (linear : bool) (m1 m2 : matrix T),
  lo b <> [] -> nonempty_box b -> offsets_dim b offs1 -> legion_ok lg ->
  grid_space linear o b (is_points lg rows1) -> grid_space linear o b (is_points lg rows2) ->
  strict_total_order (fun e => In e (map snd offs1)) ltT -> Permutation offs1 offs2 ->
  stencil_matrix A ltT o b offs1 rows1 linear m1 -> stencil_matrix A ltT o b offs2 rows2 linear m2 ->
  print_matrix lg m1 = print_matrix lg m2.
Proof.
  intros T A ltT o b offs1 offs2 lg rows1 rows2 linear m1 m2 Hlo Hn Hd Hlg G1 G2 Ht Hp H1 H2.
  assert (Hd2 : offsets_dim b offs2) by (unfold offsets_dim; eapply Permutation_Forall; [exact Hp|exact Hd]).
  destruct (stencil_print_at Hlo Hn Hd Hlg G1 H1) as (s1 & Hs1 & He1 & Hl1). destruct (stencil_print_at Hlo Hn Hd2 Hlg G2 H2) as (s2 & Hs2 & He2 & Hl2).
  assert (E : s1 = s2) by (eapply (@std_sort_unique T ltT o (length (lo b)) offs1 offs2); eassumption). subst s2.
  rewrite (surjective_pairing (print_matrix lg m1)), (surjective_pairing (print_matrix lg m2)), He1, He2, Hl1, Hl2. reflexivity.
Qed.

(** *** Concrete cases.  The 1-D second-difference stencil on 0..1: four lines.  And a CSR matrix whose second entry is in no row: one line,
    then the assert. *)
Example C71_stencil_example : exists m, stencil_matrix exact cv_lt ROW_MAJOR cv_box (real_offsets cv_offs) 1 false m /\
  legion_ok lg2 /\ grid_space false ROW_MAJOR cv_box (is_points lg2 1) /\ length (fst (print_matrix lg2 m)) = 4 /\
  snd (print_matrix lg2 m) = true.
Proof.
  destruct cv_matrix as [m Hm]. exists m. split; [exact Hm|]. split; [exact lg2_ok|].
  assert (Hn : nonempty_box cv_box) by (split; [reflexivity|intros [|i] Hi; simpl in *; lia]).
  assert (Hd' : offsets_dim cv_box (real_offsets cv_offs)) by (unfold offsets_dim, real_offsets, cv_offs; repeat constructor).
  assert (G : grid_space false ROW_MAJOR cv_box (is_points lg2 1)).
  { intros q. cbn. split.
    - intros [<-|[<-|[]]]; (eexists; split; [|reflexivity]; apply contains_iff; reflexivity).
    - intros [p [Hp ->]]. destruct Hp as (H1 & _ & H2). cbn in H1. destruct p as [|x [|]]; try discriminate. specialize (H2 0 ltac:(simpl; lia)). cbn in H2.
      destruct (Z.eq_dec x 0) as [->|]; [tauto|]. assert (x = 1)%Z by lia. subst. tauto. }
  split; [exact G|]. assert (L : lo cv_box <> []) by discriminate.
  destruct (C71_stencil_print L Hn Hd' lg2_ok G Hm) as (E1 & cs & Hp & _ & Hlen & _). split; [|exact E1].
  rewrite Hlen, (Permutation_length Hp), map_length. reflexivity.
Qed.
Definition gap_csr : csr nat := mk_csr [[0]; [1]]%Z (fun _ => [0]%Z) (fun _ => 7) 1 (fun r => match r with [0]%Z => mk_rect [0]%Z [0]%Z | _ => mk_rect [1]%Z [0]%Z end).
Example C71_abort_example : print_matrix lg2 (CSR gap_csr) = ([mk_line [0]%Z 7 [0]%Z [0]%Z], false).
Proof. reflexivity. Qed.
