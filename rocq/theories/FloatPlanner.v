(** FloatPlanner: the planner's product and dot product in IEEE arithmetic. *)
From Coq Require Import Reals Lra Lia ZArith.
From Coq Require Import Floats.SpecFloat.
From Verif Require Import Base Index Outcome Sched Async Arith Launch Vector PartitionSpec VectorFacts LaunchFacts Matrix MatrixSpec MatrixFacts
  MatvecFacts Builder BuilderFacts Exec ExactSum LinAlg Planner PlannerFacts PlannerSetup Solvers PropsVector PropsMatrix PropsPlanner Float FloatSum PropsFloat.
Set Implicit Arguments.
Local Open Scope R_scope.

(** ** Specification: the linear system stored in the matrices of a planner, whatever the entry type *)
(** the coefficient of unknown [v] in equation [u], the stored entries read by [val] *)
Definition coefficient_of {T} (val : T -> R) (cs : list (setup_call T)) (u v : unknown) : R :=
  Rsum (fun mdr => let '(m, d, r) := mdr in
    if (r =? fst u)%nat && (d =? fst v)%nat
    then Rsum (fun kp => if in_row m (snd u) kp && (if point_eq_dec (column m kp) (snd v) then true else false) then val (value m kp) else 0) (positions m)
    else 0) (mats_of cs).
(** the number of stored entries of equation [u] (of all matrices) whose column exists *)
Definition entry_count {T} (lg : legion) (cs : list (setup_call T)) (u : unknown) : nat :=
  length (flat_map (fun mdr : matrix T * nat * nat => let '(m, d, r) := mdr in if (r =? fst u)%nat then row_entries lg m (space_of cs d) (snd u) else []) (mats_of cs)).

Section Generic.
Variable T : Type.
Variable lg : legion.
Hypothesis Hlg : legion_ok lg.
Variable cs : list (setup_call T).
Hypothesis Hdom : forall m d r, In (m, d, r) (mats_of cs) -> (d < length (sols_of cs))%nat.

(** the products of row [u] *)
Definition row_products (val : T -> R) (f : unknown -> R) (u : unknown) : list R :=
  flat_map (fun mdr : matrix T * nat * nat => let '(m, d, r) := mdr in if (r =? fst u)%nat then map (fun kp => val (value m kp) * f (d, column m kp)) (row_entries lg m (space_of cs d) (snd u)) else []) (mats_of cs).
Lemma row_products_length val f u : length (row_products val f u) = entry_count lg cs u.
Proof.
  clear. unfold row_products, entry_count. induction (mats_of cs) as [|[[m d] r] l IH]; [reflexivity|]. cbn [flat_map]. rewrite !app_length, IH. destruct (r =? fst u)%nat; [rewrite map_length|]; reflexivity.
Qed.
Lemma row_products_sum val f u : Rsum (fun t => t) (row_products val f u) = app_op (unknowns lg cs) (coefficient_of val cs) f u.
Proof.
  destruct u as [i q]. unfold row_products, app_op, coefficient_of. cbn [fst snd]. rewrite Rsum_flat_map.
  rewrite (Rsum_ext (fun v => Rsum _ (mats_of cs) * f v) (fun v => Rsum (fun mdr => (let '(m, d, r) := mdr in
     if (r =? i)%nat && (d =? fst v)%nat then Rsum (fun kp => if in_row m q kp && (if point_eq_dec (column m kp) (snd v) then true else false) then val (value m kp) else 0) (positions m) else 0) * f v) (mats_of cs))) by (intros v _; apply Rsum_pull).
  rewrite Rsum_swap. apply Rsum_ext. intros [[m d] r] Hin. assert (Hd := Hdom _ _ _ Hin). destruct (r =? i)%nat; cbn [andb].
  - rewrite Rsum_map. unfold row_entries. rewrite Rsum_filter.
    transitivity (Rsum (fun v => Rsum (fun kp => (if (d =? fst v)%nat && (in_row m q kp && (if point_eq_dec (column m kp) (snd v) then true else false)) then val (value m kp) else 0) * f v) (positions m)) (unknowns lg cs)).
    2:{ apply Rsum_ext. intros v _. destruct (d =? fst v)%nat; cbn [andb]; [rewrite Rsum_pull; reflexivity|].
        transitivity (Rsum (fun _ : point => 0) (positions m)); [apply Rsum_ext; intros; ring|]. rewrite Rsum_zero. ring. }
    rewrite Rsum_swap. apply Rsum_ext. intros kp Hk.
    transitivity (Rsum (fun v => if unknown_dec v (d, column m kp) then (if in_row m q kp then val (value m kp) * f v else 0) else 0) (unknowns lg cs)).
    2:{ apply Rsum_ext. intros [j z] _. cbn [fst snd]. destruct (unknown_dec (j, z) (d, column m kp)) as [E|E].
        - injection E as -> ->. rewrite Nat.eqb_refl. destruct (point_eq_dec (column m kp) (column m kp)); [|congruence]. rewrite andb_true_r. cbn [andb]. destruct (in_row m q kp); ring.
        - destruct (d =? j)%nat eqn:Edj; cbn [andb]; [|ring]. apply Nat.eqb_eq in Edj. destruct (point_eq_dec (column m kp) z) as [Eq|Eq]; [|rewrite andb_false_r; ring]. exfalso. apply E. congruence. }
    rewrite (Rsum_indicator unknown_dec (fun v => if in_row m q kp then val (value m kp) * f v else 0)) by (apply unknowns_nodup; exact Hlg).
    destruct (in_dec unknown_dec (d, column m kp) (unknowns lg cs)) as [H|H]; rewrite in_unknowns in H.
    + destruct H as [_ H]. apply mem_spec in H. rewrite H, andb_true_r. reflexivity.
    + assert (Hm : mem (column m kp) (is_points lg (space_of cs d)) = false) by (apply mem_false; tauto). rewrite Hm, andb_false_r. reflexivity.
  - rewrite Rsum_nil. symmetry. transitivity (Rsum (fun _ : unknown => 0) (unknowns lg cs)); [|apply Rsum_zero]. apply Rsum_ext. intros v _. ring.
Qed.
Lemma row_products_mag val f u : Rsum Rabs (row_products val f u) = app_op (unknowns lg cs) (coefficient_of (fun x => Rabs (val x)) cs) (fun w => Rabs (f w)) u.
Proof.
  rewrite <- row_products_sum. unfold row_products. clear. induction (mats_of cs) as [|[[m d] r] l IH]; [cbn [flat_map]; rewrite !Rsum_nil; reflexivity|]. cbn [flat_map]. rewrite !Rsum_app, IH. f_equal.
  destruct (r =? fst u)%nat; [|rewrite !Rsum_nil; reflexivity]. rewrite !Rsum_map. apply Rsum_ext. intros kp _. apply Rabs_mult.
Qed.
(** the planner's product entry is the block product *)
Variable A : arith T.
Variable nw : nat.
Variable pl : planner T.
Hypothesis Hw : working lg cs nw pl.
Lemma matvec_value_block x i q : (i < length (sols_of cs))%nat -> In q (pts lg pl i) -> matvec_value A lg pl x i q = block_product A lg cs x i q.
Proof.
  intros Hi Hp. destruct (working_ready Hw) as [R [Em _]]. unfold matvec_value, block_product. rewrite <- Em.
  assert (G : forall (l : list (pl_matrix T)) acc, (forall pm, In pm l -> In pm (pl_mats pl)) ->
    fold_left (fun acc pm => if (pm_range pm =? i)%nat then accumulate_row A (x (pm_domain pm)) acc (row_triples lg (pm_matrix pm) (pts lg pl (pm_domain pm)) q) else acc) l acc =
    fold_left (fun acc mdr => let '(m, d, r) := mdr in if (r =? i)%nat then add_products A m (x d) acc (row_entries lg m (space_of cs d) q) else acc)
      (map (fun pm => (pm_matrix pm, pm_domain pm, pm_range pm)) l) acc).
  { induction l as [|pm l IH]; intros acc Hin; [reflexivity|]. cbn [map fold_left]. rewrite IH by (intros pm' H'; apply Hin; right; exact H'). f_equal.
    destruct (pm_range pm =? i)%nat eqn:Er; [|reflexivity]. apply Nat.eqb_eq in Er.
    destruct (rd_mats R pm (Hin _ (or_introl eq_refl))) as [M1 [M2 [M3 [M4 M5]]]].
    rewrite accumulate_entries; [|exact Hlg|].
    - unfold row_entries, space_of. rewrite <- (pts_space Hw M2). reflexivity.
    - destruct (pm_matrix pm) as [c|c] eqn:Ec; [exact I|]. destruct (@kernel_from_range_pieces T lg (CSR c) _ _ M4) as [_ Hr].
      assert (H0 : (0 < 2 + nw)%nat) by lia. rewrite <- Hr. assert (Hc2 := rd_constructed R H0 M3). destruct (rd_layout R H0 M3) as [_ Ep]. rewrite <- Ep, (constructed_parent Hc2), (vec_space R H0 M3).
      rewrite Er. exact Hp. }
  apply G. auto.
Qed.
End Generic.

(** ** Rounding errors *)
Section Float.
Variables p e : Z.
Hypothesis Hpe : format p e.
Variable N : Prop.
Variable lg : legion.
Hypothesis Hlg : legion_ok lg.
Variable cs : list (setup_call spec_float).
Hypothesis Hdom : forall m d r, In (m, d, r) (mats_of cs) -> (d < length (sols_of cs))%nat.
Definition float_entries : Prop := forall m d r, In (m, d, r) (mats_of cs) -> forall kp, In kp (positions m) -> is_float p e (value m kp).
Definition number_entries : Prop := forall m d r, In (m, d, r) (mats_of cs) -> forall kp, In kp (positions m) -> is_number (value m kp).
Hypothesis Hfe : float_entries.
Hypothesis Hne : N -> number_entries.
Notation U := (unknowns lg cs).
Notation A := (ieee p e).

Lemma add_products_approx (m : matrix spec_float) (x : point -> spec_float) kps : forall ts y, approx p e N ts y ->
  (forall kp, In kp kps -> is_float p e (value m kp) /\ is_float p e (x (column m kp)) /\ (N -> is_number (value m kp) /\ is_number (x (column m kp)))) ->
  approx p e N (ts ++ map (fun kp => fvalue (value m kp) * fvalue (x (column m kp))) kps) (add_products A m x y kps).
Proof.
  destruct Hpe as [H1 H2]. intros ts y Ha Hf. pose proof (@accumulate_approx p e H1 H2 N (map (fun kp => (value m kp, x (column m kp))) kps) ts y Ha) as D.
  rewrite map_map in D. cbn [fst snd] in D. unfold add_products.
  assert (E : forall l y, fold_left (fun acc kp => aadd A acc (amul A (value m kp) (x (column m kp)))) l y = fold_left (fun a xy => aadd A a (amul A (fst xy) (snd xy))) (map (fun kp => (value m kp, x (column m kp))) l) y).
  { intros l. induction l as [|kp l IH]; intros y0; [reflexivity|]. cbn [fold_left map fst snd]. apply IH. }
  rewrite E. apply D. intros xy Hxy. apply in_map_iff in Hxy. destruct Hxy as [kp [<- Hk]]. exact (Hf kp Hk).
Qed.
Lemma block_approx (x : unknown -> spec_float) i q : (forall u, In u U -> is_float p e (x u) /\ (N -> is_number (x u))) ->
  approx p e N (row_products lg cs fvalue (fun u => fvalue (x u)) (i, q)) (block_product A lg cs (fun d z => x (d, z)) i q).
Proof.
  intros Hx. unfold block_product, row_products. cbn [fst snd].
  assert (G : forall l ts y, (forall m d r, In (m, d, r) l -> In (m, d, r) (mats_of cs)) -> approx p e N ts y ->
    approx p e N (ts ++ flat_map (fun mdr : matrix spec_float * nat * nat => let '(m, d, r) := mdr in if (r =? i)%nat then map (fun kp => fvalue (value m kp) * fvalue (x (d, column m kp))) (row_entries lg m (space_of cs d) q) else []) l)
      (fold_left (fun acc mdr => let '(m, d, r) := mdr in if (r =? i)%nat then add_products A m (fun z => x (d, z)) acc (row_entries lg m (space_of cs d) q) else acc) l y)).
  { induction l as [|[[m d] r] l IH]; intros ts y Hl Ha; cbn [flat_map fold_left]; [rewrite app_nil_r; exact Ha|]. rewrite app_assoc. apply IH; [intros m' d' r' H'; apply Hl; right; exact H'|].
    destruct (r =? i)%nat; [|rewrite app_nil_r; exact Ha]. assert (Hin : In (m, d, r) (mats_of cs)) by (apply Hl; left; reflexivity).
    apply (@add_products_approx m (fun z => x (d, z))); [exact Ha|]. intros kp Hk. unfold row_entries in Hk. apply filter_In in Hk. destruct Hk as [Hk Hb]. apply andb_true_iff in Hb. destruct Hb as [_ Hb]. apply mem_spec in Hb.
    assert (Hu : In (d, column m kp) U) by (apply in_unknowns; split; [eapply Hdom; exact Hin|exact Hb]). destruct (Hx _ Hu) as [F1 F2].
    split; [exact (Hfe _ _ _ Hin _ Hk)|]. split; [exact F1|]. intros Hn. split; [exact (Hne Hn _ _ _ Hin _ Hk)|exact (F2 Hn)]. }
  destruct Hpe as [H1 H2]. apply (G (mats_of cs) [] (a0 A)); [auto|]. apply approx_zero. exact H1.
Qed.

Variable red : nat -> list spec_float -> spec_float.
Hypothesis Hred : legal_reduction A red.
Variable nw : nat.
Variable pl : planner spec_float.
Hypothesis Hw : working lg cs nw pl.
Notation n := (length (sols_of cs)).
(** entry [u] of planner vector [vi] *)
Definition entry (s : store loc spec_float) (vi : nat) (u : unknown) : spec_float := s (cell pl vi (fst u) (snd u)).
Lemma in_unknowns_pts i q : In (i, q) U <-> (i < n)%nat /\ In q (pts lg pl i).
Proof. rewrite in_unknowns. unfold space_of. split; intros [H1 H2]; (split; [exact H1|]); [rewrite (pts_space Hw H1)|rewrite <- (pts_space Hw H1)]; exact H2. Qed.
Lemma dot_value_approx s vi vj d : (vi < 2 + nw)%nat -> (vj < 2 + nw)%nat ->
  (forall u, In u U -> is_float p e (entry s vi u) /\ is_float p e (entry s vj u) /\ (N -> is_number (entry s vi u) /\ is_number (entry s vj u))) ->
  dot_value A lg red pl n s vi vj d -> approx p e N (map (fun u => fvalue (entry s vi u) * fvalue (entry s vj u)) U) d.
Proof.
  intros Hv Hj Hf [d0 [ds [-> D]]]. destruct (working_ready Hw) as [R _]. pose proof Hpe as [H1 H2].
  assert (V : forall i dd, (i < n)%nat -> component_value A lg red pl s vi vj i dd -> approx p e N (map (fun u => fvalue (entry s vi u) * fvalue (entry s vj u)) (map (pair i) (is_points lg (space_of cs i)))) dd).
  { intros i dd Hi [m ->]. rewrite map_map. unfold entry. cbn [fst snd].
    assert (Pm := constructed_perm Hlg (rd_constructed R Hv Hi)). rewrite (vec_space R Hv Hi), (pts_space Hw Hi) in Pm.
    eapply approx_perm; [apply Permutation_map; exact Pm|]. rewrite concat_map. eapply reduces_approx; [exact H1|exact H2|apply Hred|].
    assert (In_piece : forall piece q, In piece (pieces lg (vec pl vi i)) -> In q piece -> In (i, q) U) by (intros piece q K1 K2; apply in_unknowns; split; [exact Hi|]; eapply Permutation_in; [exact Pm|]; apply in_concat; exists piece; split; assumption).
    clear Pm. induction (pieces lg (vec pl vi i)) as [|piece ps IH]; cbn [map]; constructor.
    - apply (@partial_dot_approx p e N s (vec pl vi i) (vec pl vj i) piece Hpe). intros q Hq. exact (Hf _ (In_piece piece q (or_introl eq_refl) Hq)).
    - apply IH. intros piece' q K1 K2. eapply In_piece; [right; exact K1|exact K2]. }
  unfold unknowns.
  assert (G : forall l l2, (forall i, In i l -> (i < n)%nat) -> Forall2 (component_value A lg red pl s vi vj) l l2 -> forall ts y, approx p e N ts y ->
     approx p e N (ts ++ map (fun u => fvalue (entry s vi u) * fvalue (entry s vj u)) (flat_map (fun i => map (pair i) (is_points lg (space_of cs i))) l)) (fold_left (aadd A) l2 y)).
  { intros l l2 Hl H. induction H as [|i dd l l2 Hm H IH]; intros ts y Ha; cbn [flat_map fold_left map]; [rewrite app_nil_r; exact Ha|]. rewrite map_app, app_assoc.
    apply IH; [intros k Hk; apply Hl; right; exact Hk|]. apply approx_add; [exact H1|exact H2|exact Ha|]. apply V; [apply Hl; left; reflexivity|exact Hm]. }
  assert (Hs : forall i, In i (seq 0 n) -> (i < n)%nat) by (intros i Hi; apply in_seq in Hi; lia). inversion D as [|i d1 l l2 Hm Hr E1 E2]. subst. rewrite <- E1 in Hs. cbn [flat_map]. rewrite map_app.
  apply G; [intros k Hk; apply Hs; right; exact Hk|exact Hr|]. apply V; [apply Hs; left; reflexivity|exact Hm].
Qed.
End Float.
