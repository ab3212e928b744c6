(** PropsMatrix: properties C09 - C14 (sparse matrix times vector and derived partitions). *)
From Verif Require Import Base Index Outcome Sched Async Arith Launch Vector PartitionSpec VectorFacts LaunchFacts Builder BuilderFacts Exec ExactSum Matrix MatrixSpec MatrixFacts MatvecFacts PropsVector.
From Coq Require Import Reals Lra.
Set Implicit Arguments.

(** ** Specification: what the stored data of a matrix mean *)
Section Spec.
Variable T : Type.
Variable lg : legion.
(** positions of the stored entries, in storage order *)
Definition positions (m : matrix T) : list point := match m with COO c => co_kpts c | CSR c => cs_kpts c end.
Definition column (m : matrix T) (kp : point) : point := match m with COO c => co_col c kp | CSR c => cs_col c kp end.
Definition value (m : matrix T) (kp : point) : T := match m with COO c => co_entry c kp | CSR c => cs_entry c kp end.
(** is the entry at position [kp] in row [p]?  COO: its row field is [p]; CSR: the row pointer interval of [p]
    contains [kp]. *)
Definition in_row (m : matrix T) (p kp : point) : bool :=
  match m with
  | COO c => if point_eq_dec (co_row c kp) p then true else false
  | CSR c => contains (cs_rowptr c p) kp
  end.
(** [y] plus the entries at positions [kps], times the source elements of their columns, added one after the
    other in the entry type *)
Definition add_products (A : arith T) (m : matrix T) (x : point -> T) (y : T) (kps : list point) : T :=
  fold_left (fun acc kp => aadd A acc (amul A (value m kp) (x (column m kp)))) kps y.
(** the stored entries of row [p] whose column exists in index space [space], in storage order *)
Definition row_entries (m : matrix T) (space : nat) (p : point) : list point :=
  filter (fun kp => in_row m p kp && mem (column m kp) (is_points lg space)) (positions m).
End Spec.

(** The API call sequence for one product: derive the kernel partition from the destination's partition and the
    ghost partition from it (as SquarePlanner::add_row_partitioned_matrix does), then matvec. *)
Definition derived_matvec {T} (A : arith T) (lg : legion) (m : matrix T) (dst src : pvec) : outcome (launch T) :=
  do kps <- kernel_from_range lg m (pv_part dst);
  matvec A lg m dst src kps (domain_from_kernel lg m (pv_space src) kps).
(** a CSR matrix can only be applied to a destination living on the index space of its row pointers *)
Definition fits {T} (m : matrix T) (dst : pvec) : Prop := match m with COO _ => True | CSR c => pv_space dst = cs_rows c end.

Section Facts.
Variable T : Type.
Variable A : arith T.
Variable lg : legion.
Hypothesis Hlg : legion_ok lg.

Lemma fold_filter_map X Y (f : T -> Y -> T) (g : X -> Y) (l : list X) acc : fold_left (fun a x => f a (g x)) l acc = fold_left f (map g l) acc.
Proof. revert acc. induction l as [|a l IH]; intros acc; cbn; [reflexivity|apply IH]. Qed.
Lemma row_triples_entries (m : matrix T) cols p : match m with COO _ => True | CSR c => In p (is_points lg (cs_rows c)) end ->
  row_triples lg m cols p = map (fun kp => (p, column m kp, value m kp)) (filter (fun kp => in_row m p kp && mem (column m kp) cols) (positions m)).
Proof.
  intros Hp. unfold row_triples. destruct m as [c|c]; cbn [triples positions column value in_row].
  - induction (co_kpts c) as [|kp l IH]; [reflexivity|]. cbn [map filter].
    destruct (point_eq_dec (co_row c kp) p) as [E|E]; cbn [andb]; [|exact IH].
    destruct (mem (co_col c kp) cols); cbn [map]; rewrite IH; [rewrite E|]; reflexivity.
  - induction (cs_kpts c) as [|kp l IH]; [reflexivity|]. cbn [flat_map filter]. rewrite filter_app, IH.
    assert (E : filter (fun t : point * point * T => let '(r, c0, _) := t in (if point_eq_dec r p then true else false) && mem c0 cols)
        (map (fun r => (r, cs_col c kp, cs_entry c kp)) (filter (fun r => contains (cs_rowptr c r) kp) (is_points lg (cs_rows c))))
      = if contains (cs_rowptr c p) kp && mem (cs_col c kp) cols then [(p, cs_col c kp, cs_entry c kp)] else []).
    { assert (Hn : NoDup (is_points lg (cs_rows c))) by apply Hlg. revert Hn Hp. clear. generalize (is_points lg (cs_rows c)) as rs.
      induction rs as [|r rs IH]; intros Hn Hp; [destruct Hp|]. inversion Hn; subst. cbn [filter].
      assert (Hno : forall rs', ~ In p rs' -> filter (fun t : point * point * T => let '(r, c0, _) := t in (if point_eq_dec r p then true else false) && mem c0 cols)
        (map (fun r => (r, cs_col c kp, cs_entry c kp)) (filter (fun r => contains (cs_rowptr c r) kp) rs')) = []).
      { clear. induction rs' as [|r rs IH]; intros Hn; [reflexivity|]. cbn [filter].
        assert (Hn2 : ~ In p rs) by (intros X; apply Hn; right; exact X).
        destruct (contains (cs_rowptr c r) kp); [|apply IH; exact Hn2]. cbn [map filter].
        destruct (point_eq_dec r p) as [->|_]; [exfalso; apply Hn; left; reflexivity|]. cbn [andb]. apply IH; exact Hn2. }
      destruct Hp as [->|Hp].
      - destruct (contains (cs_rowptr c p) kp) eqn:E; cbn [map filter andb]; [|apply Hno; assumption].
        destruct (point_eq_dec p p) as [_|C]; [|congruence]. cbn [andb]. rewrite (Hno rs H1). destruct (mem (cs_col c kp) cols); reflexivity.
      - destruct (contains (cs_rowptr c r) kp) eqn:E; [|apply IH; assumption]. cbn [map filter].
        destruct (point_eq_dec r p) as [->|_]; [contradiction|]. cbn [andb]. apply IH; assumption. }
    rewrite E. destruct (contains (cs_rowptr c p) kp && mem (cs_col c kp) cols); reflexivity.
Qed.
Lemma accumulate_entries (m : matrix T) cols p x y : match m with COO _ => True | CSR c => In p (is_points lg (cs_rows c)) end ->
  accumulate_row A x y (row_triples lg m cols p) =
  add_products A m x y (filter (fun kp => in_row m p kp && mem (column m kp) cols) (positions m)).
Proof.
  intros Hp. rewrite row_triples_entries by exact Hp. unfold accumulate_row, add_products.
  generalize (filter (fun kp => in_row m p kp && mem (column m kp) cols) (positions m)) as l. intros l. revert y.
  induction l as [|kp l IH]; intros y; cbn; [reflexivity|apply IH].
Qed.

Lemma derived_good m dst src ln : constructed lg dst -> derived_matvec A lg m dst src = Ok ln -> good_launch ln.
Proof.
  intros Hc H. unfold derived_matvec, obind in H. destruct (kernel_from_range lg m (pv_part dst)) as [kps| | |]; try discriminate.
  exact (@matvec_good T A lg Hlg m dst src kps _ ln Hc H).
Qed.
Lemma derived_effect m dst src ln s s' : constructed lg dst -> matrix_ok lg m ->
  derived_matvec A lg m dst src = Ok ln -> launches_end [ln] s s' ->
  (forall p, In p (is_points lg (pv_space dst)) ->
     s' (at_point dst p) = add_products A m (fun q => s (at_point src q)) (s (at_point dst p)) (row_entries lg m (pv_space src) p)) /\
  (forall l, (forall p, In p (is_points lg (pv_space dst)) -> l <> at_point dst p) -> s' l = s l).
Proof.
  intros Hc Hok H He. assert (Hg := derived_good m src Hc H). unfold derived_matvec, obind in H.
  destruct (kernel_from_range lg m (pv_part dst)) as [kps| | |] eqn:Ek; try discriminate.
  assert (Hgs : Forall good_launch [ln]) by (constructor; [exact Hg|constructor]).
  assert (E := launches_end_effect Hgs He).
  assert (E2 : forall l, s' l = run loc_dec (concat (ln_tasks ln)) s l) by (intros l; rewrite E, effect_one; reflexivity).
  destruct (@matvec_derived_effect T A lg Hlg m dst src kps ln _ Hc Hok Ek H (interleave_concat (ln_tasks ln)) s) as [U1 U2].
  destruct (@kernel_from_range_pieces T lg m (pv_part dst) kps Ek) as [_ Hr].
  split.
  - intros p Hp. rewrite E2, (U1 p Hp). unfold row_entries. apply accumulate_entries. destruct m; [exact I|].
    rewrite <- Hr, (constructed_parent Hc). exact Hp.
  - intros l Hl. rewrite E2. apply U2. exact Hl.
Qed.
Lemma derived_accepts m dst src : constructed lg dst -> fits m dst -> distinct_storage dst src -> exists ln, derived_matvec A lg m dst src = Ok ln.
Proof.
  intros Hc Hf Hd. unfold derived_matvec, obind.
  assert (Hk : exists kps, kernel_from_range lg m (pv_part dst) = Ok kps).
  { destruct m as [c|c]; cbn; [eexists; reflexivity|]. rewrite (constructed_parent Hc), Hf, Nat.eqb_refl. eexists; reflexivity. }
  destruct Hk as [kps Hk]. rewrite Hk. exact (@matvec_accepts T A lg m dst src kps Hc Hk Hd).
Qed.
End Facts.

(** ** C09.  COO matrix times vector: every destination entry gets its former value plus the products of the
    stored entries of its row, in storage order, in any arithmetic; nothing else changes. *)
Theorem C09_coo_matvec : forall (T : Type) (A : arith T) (lg : legion) (c : coo T) (dst src : pvec),
  legion_ok lg -> constructed lg dst ->
  (distinct_storage dst src -> exists ln, derived_matvec A lg (COO c) dst src = Ok ln) /\
  (forall ln s s', derived_matvec A lg (COO c) dst src = Ok ln -> launches_end [ln] s s' ->
    (forall p, In p (is_points lg (pv_space dst)) ->
       s' (at_point dst p) =
       fold_left (fun acc kp => aadd A acc (amul A (co_entry c kp) (s (at_point src (co_col c kp)))))
         (filter (fun kp => (if point_eq_dec (co_row c kp) p then true else false) && mem (co_col c kp) (is_points lg (pv_space src))) (co_kpts c))
         (s (at_point dst p))) /\
    (forall l, (forall p, In p (is_points lg (pv_space dst)) -> l <> at_point dst p) -> s' l = s l)).
Proof.
  intros T A lg c dst src Hlg Hc. split.
  - intros Hd. exact (@derived_accepts T A lg (COO c) dst src Hc I Hd).
  - intros ln s s' H He. exact (@derived_effect T A lg Hlg (COO c) dst src ln s s' Hc I H He).
Qed.

(** ** C10.  The same for CSR: the row of an entry is the row whose interval contains its position. *)
Theorem C10_csr_matvec : forall (T : Type) (A : arith T) (lg : legion) (c : csr T) (dst src : pvec),
  legion_ok lg -> constructed lg dst ->
  (pv_space dst = cs_rows c -> distinct_storage dst src -> exists ln, derived_matvec A lg (CSR c) dst src = Ok ln) /\
  (forall ln s s', rows_disjoint lg c -> derived_matvec A lg (CSR c) dst src = Ok ln -> launches_end [ln] s s' ->
    (forall p, In p (is_points lg (pv_space dst)) ->
       s' (at_point dst p) =
       fold_left (fun acc kp => aadd A acc (amul A (cs_entry c kp) (s (at_point src (cs_col c kp)))))
         (filter (fun kp => contains (cs_rowptr c p) kp && mem (cs_col c kp) (is_points lg (pv_space src))) (cs_kpts c))
         (s (at_point dst p))) /\
    (forall l, (forall p, In p (is_points lg (pv_space dst)) -> l <> at_point dst p) -> s' l = s l)).
Proof.
  intros T A lg c dst src Hlg Hc. split.
  - intros Hf Hd. exact (@derived_accepts T A lg (CSR c) dst src Hc Hf Hd).
  - intros ln s s' Hr H He. exact (@derived_effect T A lg Hlg (CSR c) dst src ln s s' Hc Hr H He).
Qed.

(** Real-number form, for both formats: y_p := y_p + sum over the stored entries of row p of e * x[col], when all
    columns lie in the source's index space. *)
Lemma add_products_exact (m : matrix (option R)) (x : point -> option R) y kps (f : point -> R) (e : point -> R) y0 :
  y = Some y0 -> (forall kp, In kp kps -> value m kp = Some (e kp) /\ x (column m kp) = Some (f (column m kp))) ->
  add_products exact m x y kps = Some (y0 + Rsum (fun kp => e kp * f (column m kp)) kps)%R.
Proof.
  intros -> H. revert y0. unfold add_products. induction kps as [|kp kps IH]; intros y0.
  - cbn [fold_left]. rewrite Rsum_nil. f_equal. ring.
  - cbn [fold_left]. destruct (H kp (or_introl eq_refl)) as [H1 H2]. rewrite H1, H2. cbn [exact amul aadd lift2].
    rewrite IH by (intros kp' Hk; apply H; right; exact Hk). rewrite Rsum_cons. f_equal. ring.
Qed.
Theorem C09_C10_matvec_exact : forall (lg : legion) (m : matrix (option R)) (dst src : pvec) ln s s' (x y e : point -> R),
  legion_ok lg -> constructed lg dst -> matrix_ok lg m ->
  derived_matvec exact lg m dst src = Ok ln -> launches_end [ln] s s' ->
  holds lg s dst y -> holds lg s src x ->
  (forall kp, In kp (positions m) -> value m kp = Some (e kp) /\ In (column m kp) (is_points lg (pv_space src))) ->
  holds lg s' dst (fun p => y p + Rsum (fun kp => if in_row m p kp then e kp * x (column m kp) else 0) (positions m))%R.
Proof.
  intros lg m dst src ln s s' x y e Hlg Hc Hok H He Hy Hx Hm p Hp.
  destruct (@derived_effect _ exact lg Hlg m dst src ln s s' Hc Hok H He) as [U _]. rewrite (U p Hp).
  rewrite (@add_products_exact m (fun q => s (at_point src q)) _ _ x e (y p)).
  - f_equal. f_equal. unfold row_entries. rewrite Rsum_filter. apply Rsum_ext. intros kp Hk. destruct (Hm kp Hk) as [_ Hin].
    apply mem_spec in Hin. rewrite Hin, andb_true_r. reflexivity.
  - apply Hy. exact Hp.
  - intros kp Hk. unfold row_entries in Hk. apply filter_In in Hk. destruct Hk as [Hk Hb]. apply andb_true_iff in Hb. destruct Hb as [_ Hb].
    apply mem_spec in Hb. split; [apply Hm; exact Hk|apply Hx; exact Hb].
Qed.

(** The result depends neither on the partition of the destination nor on the schedule, in any arithmetic. *)
Theorem C09_C10_partition_and_schedule_independent : forall (T : Type) (A : arith T) (lg : legion) (m : matrix T) dst dst' src src' ln ln' s s1 s2,
  legion_ok lg -> constructed lg dst -> constructed lg dst' -> same_data dst dst' -> same_data src src' -> matrix_ok lg m ->
  derived_matvec A lg m dst src = Ok ln -> derived_matvec A lg m dst' src' = Ok ln' ->
  launches_end [ln] s s1 -> launches_end [ln'] s s2 -> forall l, s1 l = s2 l.
Proof.
  intros T A lg m dst dst' src src' ln ln' s s1 s2 Hlg Hc Hc' [D1 [D2 D3]] [S1 [S2 S3]] Hok H H' He He' l.
  destruct (@derived_effect T A lg Hlg m dst src ln s s1 Hc Hok H He) as [U1 U2].
  destruct (@derived_effect T A lg Hlg m dst' src' ln' s s2 Hc' Hok H' He') as [V1 V2].
  assert (Eat : forall p, at_point dst p = at_point dst' p) by (intros p; unfold at_point; congruence).
  assert (Esr : forall p, at_point src p = at_point src' p) by (intros p; unfold at_point; congruence).
  assert (dec : (exists p, In p (is_points lg (pv_space dst)) /\ l = at_point dst p) \/ (forall p, In p (is_points lg (pv_space dst)) -> l <> at_point dst p)).
  { clear. induction (is_points lg (pv_space dst)) as [|p ps IH]; [right; intros p []|].
    destruct (loc_dec l (at_point dst p)) as [E|E]; [left; exists p; split; [left; reflexivity|exact E]|].
    destruct IH as [[q [Hq Eq]]|IH]; [left; exists q; split; [right; exact Hq|exact Eq]|].
    right. intros q [<-|Hq]; [exact E|apply IH; exact Hq]. }
  destruct dec as [[p [Hp ->]]|Hn].
  - rewrite (U1 p Hp). rewrite D3 in Hp. rewrite Eat, (V1 p Hp), S3. unfold add_products.
    generalize (row_entries lg m (pv_space src') p) as kps. intros kps. generalize (s (at_point dst' p)) as y. induction kps as [|kp kps IH]; intros y; [reflexivity|].
    cbn [fold_left]. rewrite Esr. apply IH.
  - rewrite U2 by exact Hn. rewrite V2; [reflexivity|]. intros p Hp. rewrite <- Eat. apply Hn. rewrite D3. exact Hp.
Qed.

Lemma filter_filter_and X (f g : X -> bool) l : filter f (filter g l) = filter (fun x => g x && f x) l.
Proof.
  induction l as [|a l IH]; [reflexivity|]. cbn [filter]. destruct (g a); cbn [filter andb]; [destruct (f a)|]; rewrite IH; reflexivity.
Qed.
(** ** Products with arbitrary (user-supplied) kernel and ghost partitions *)
(** [p] is the LAST row of [piece], in enumeration order, whose interval contains [kp] *)
Definition last_row {T} (c : csr T) (piece : list point) (kp p : point) : Prop :=
  exists l1 l2, piece = l1 ++ p :: l2 /\ contains (cs_rowptr c p) kp = true /\
    forall r, In r l2 -> contains (cs_rowptr c r) kp = false.
(** the row a point task owning [piece] credits entry [kp] to *)
Definition credited {T} (m : matrix T) (piece : list point) (kp p : point) : Prop :=
  match m with COO c => co_row c kp = p | CSR c => last_row c piece kp p end.
Section General.
Variable T : Type.
Variable A : arith T.
Variable lg : legion.
Hypothesis Hlg : legion_ok lg.
Definition credited_b (m : matrix T) (piece : list point) (p kp : point) : bool :=
  match m with
  | COO c => if point_eq_dec (co_row c kp) p then true else false
  | CSR c => match csr_find_row (cs_rowptr c) piece kp with Some r => if point_eq_dec r p then true else false | None => false end
  end.
Lemma credited_b_spec m piece p kp : NoDup piece -> In p piece -> (credited_b m piece p kp = true <-> credited m piece kp p).
Proof.
  intros Hn Hp. destruct m as [c|c]; cbn [credited_b credited].
  - destruct (point_eq_dec (co_row c kp) p); split; congruence.
  - assert (H := csr_find_row_spec (cs_rowptr c) piece kp). destruct (csr_find_row (cs_rowptr c) piece kp) as [r|].
    + split.
      * destruct (point_eq_dec r p) as [->|]; [|discriminate]. intros _. exact H.
      * intros [l1 [l2 [E [Hc Hl]]]]. destruct H as [m1 [m2 [E' [Hc' Hl']]]]. destruct (point_eq_dec r p) as [|N]; [reflexivity|exfalso].
        (* both are last *)
        assert (Hr : In r piece) by (rewrite E'; apply in_elt). assert (Hr2 : In r l1).
        { rewrite E in Hr. apply in_app_or in Hr. destruct Hr as [Hr|[Hr|Hr]]; [exact Hr|congruence|]. rewrite (Hl r Hr) in Hc'. discriminate. }
        assert (Hq : In p m1).
        { rewrite E' in Hp. apply in_app_or in Hp. destruct Hp as [Hr0|[Hr0|Hr0]]; [exact Hr0|congruence|]. rewrite (Hl' p Hr0) in Hc. discriminate. }
        (* r before p and p before r *)
        apply in_split in Hq. destruct Hq as [k1 [k2 ->]]. apply in_split in Hr2. destruct Hr2 as [h1 [h2 ->]].
        assert (EE : (h1 ++ r :: h2) ++ p :: l2 = (k1 ++ p :: k2) ++ r :: m2) by congruence.
        assert (Hn2 : NoDup ((h1 ++ r :: h2) ++ p :: l2)) by (rewrite <- E; exact Hn).
        rewrite <- !app_assoc in EE. cbn in EE. rewrite <- app_assoc in Hn2. cbn in Hn2. clear - EE Hn2 N.
        revert k1 EE. induction h1 as [|a h1 IH]; intros k1 EE.
        -- cbn in EE. destruct k1 as [|b k1]; cbn in EE; [congruence|]. injection EE as -> E2.
           cbn in Hn2. inversion Hn2; subst. apply H1. rewrite E2. apply in_or_app. right. right. apply in_or_app. right. left. reflexivity.
        -- cbn in EE, Hn2. inversion Hn2; subst. destruct k1 as [|b k1]; cbn in EE; injection EE as E1 E2.
           ++ subst a. apply H1. apply in_or_app. right. right. apply in_or_app. right. left. reflexivity.
           ++ apply (IH H2 k1 E2).
    + split; [discriminate|]. intros [l1 [l2 [-> [Hc _]]]]. rewrite (H p) in Hc by apply in_elt. discriminate.
Qed.
Lemma entries_kp m piece kpiece ghost p : In p piece ->
  filter (fun t => if point_eq_dec (fst (fst t)) p then true else false) (entries_of m (piece, (kpiece, ghost)))
  = map (fun kp => (p, column m kp, value m kp)) (filter (fun kp => credited_b m piece p kp && mem (column m kp) ghost) kpiece).
Proof.
  intros Hp. apply mem_spec in Hp. destruct m as [c|c]; cbn [entries_of]; unfold coo_entries, csr_entries; cbn [credited_b column value].
  - induction kpiece as [|kp l IH]; [reflexivity|]. cbn [flat_map filter]. rewrite filter_app, IH.
    destruct (point_eq_dec (co_row c kp) p) as [E|E].
    + rewrite E, Hp, andb_true_r. cbn [andb]. destruct (mem (co_col c kp) ghost); [|reflexivity]. cbn [filter fst map app]. destruct (point_eq_dec p p); [cbn [app]; rewrite ?E; reflexivity|congruence].
    + cbn [andb]. destruct (mem (co_col c kp) ghost && mem (co_row c kp) piece); [|reflexivity]. cbn [filter fst map app]. destruct (point_eq_dec (co_row c kp) p); [congruence|reflexivity].
  - induction kpiece as [|kp l IH]; [reflexivity|]. cbn [flat_map filter]. rewrite filter_app, IH.
    destruct (csr_find_row (cs_rowptr c) piece kp) as [r|] eqn:Er; [|reflexivity]. destruct (point_eq_dec r p) as [->|E].
    + rewrite Hp, andb_true_r. cbn [andb]. destruct (mem (cs_col c kp) ghost); [|reflexivity]. cbn [filter fst map app]. destruct (point_eq_dec p p); [cbn [app]; rewrite ?E; reflexivity|congruence].
    + cbn [andb]. destruct (mem (cs_col c kp) ghost && mem r piece); [|reflexivity]. cbn [filter fst map app]. destruct (point_eq_dec r p); [congruence|reflexivity].
Qed.
Lemma general_effect m dst src kps ghosts ln s s' : constructed lg dst ->
  matvec A lg m dst src kps ghosts = Ok ln -> launches_end [ln] s s' ->
  forall color piece kpiece ghost p, nth_error (part_pieces lg (pv_part dst)) color = Some piece -> nth_error kps color = Some kpiece ->
     nth_error ghosts color = Some ghost -> In p piece ->
     s' (at_point dst p) = add_products A m (fun q => s (at_point src q)) (s (at_point dst p))
       (filter (fun kp => credited_b m piece p kp && mem (column m kp) ghost) kpiece).
Proof.
  intros Hc H He color piece kpiece ghost p H1 H2 H3 Hp.
  assert (Hg : Forall good_launch [ln]) by (constructor; [exact (@matvec_good T A lg Hlg m dst src kps ghosts ln Hc H)|constructor]).
  rewrite (launches_end_effect Hg He), effect_one.
  destruct (@matvec_effect_general T A lg Hlg m dst src kps ghosts ln _ Hc H (interleave_concat (ln_tasks ln)) s) as [U _].
  rewrite (U color piece kpiece ghost p H1 H2 H3 Hp), entries_kp by exact Hp. unfold accumulate_row, add_products.
  generalize (filter (fun kp => credited_b m piece p kp && mem (column m kp) ghost) kpiece) as l. intros l. generalize (s (at_point dst p)) as y.
  induction l as [|kp l IH]; intros y; cbn; [reflexivity|apply IH].
Qed.
End General.

(** ** C11.  Malformed row pointers.  Without any assumption on the intervals: each task credits an entry to the
    last row of its piece whose interval contains the entry. *)
Theorem C11_last_matching_row_of_each_piece : forall (T : Type) (A : arith T) (lg : legion) (c : csr T) (dst src : pvec) ln s s' color piece p,
  legion_ok lg -> constructed lg dst -> derived_matvec A lg (CSR c) dst src = Ok ln -> launches_end [ln] s s' ->
  nth_error (part_pieces lg (pv_part dst)) color = Some piece -> In p piece ->
  exists mine : point -> bool,
    (forall kp, mine kp = true <-> last_row c piece kp p) /\
    s' (at_point dst p) =
    fold_left (fun acc kp => aadd A acc (amul A (cs_entry c kp) (s (at_point src (cs_col c kp)))))
      (filter (fun kp => mine kp && mem (cs_col c kp) (is_points lg (pv_space src))) (cs_kpts c)) (s (at_point dst p)).
Proof.
  intros T A lg c dst src ln s s' color piece p Hlg Hc H He Hpi Hp.
  assert (Hn : NoDup piece) by (apply (proj2 Hlg (pv_part dst)); eapply nth_error_In; exact Hpi).
  exists (credited_b (CSR c) piece p). split; [intros kp; exact (@credited_b_spec T (CSR c) piece p kp Hn Hp)|].
  unfold derived_matvec, obind in H. destruct (kernel_from_range lg (CSR c) (pv_part dst)) as [kps| | |] eqn:Ek; try discriminate.
  destruct (@kernel_from_range_pieces T lg (CSR c) (pv_part dst) kps Ek) as [Ekp _].
  assert (Hkc : nth_error kps color = Some (filter (kernel_in_piece (CSR c) piece) (kpts (CSR c)))).
  { rewrite Ekp, nth_error_map_some, Hpi. reflexivity. }
  rewrite domain_from_kernel_eq in H.
  rewrite (@general_effect T A lg Hlg (CSR c) dst src kps _ ln s s' Hc H He color piece (filter (kernel_in_piece (CSR c) piece) (kpts (CSR c)))
    (filter (fun p => mem p (map (kcol (CSR c)) (filter (kernel_in_piece (CSR c) piece) (kpts (CSR c))))) (is_points lg (pv_space src))) p Hpi Hkc); [|rewrite nth_error_map_some, Hkc; reflexivity|exact Hp].
  unfold add_products. cbn [value column]. f_equal. cbn [kpts kcol].
  rewrite filter_filter_and. apply filter_ext_in. intros kp Hk.
  destruct (credited_b (CSR c) piece p kp) eqn:Ec.
  - assert (Hcov : kernel_in_piece (CSR c) piece kp = true).
    { cbn. apply existsb_exists. apply credited_b_spec in Ec; [|exact Hn|exact Hp]. destruct Ec as [l1 [l2 [_ [Hcr _]]]]. exists p. split; assumption. }
    rewrite Hcov. cbn [andb]. cbn [column].
    rewrite (mem_ghost (CSR c)). cbn [kcol].
    replace (mem (cs_col c kp) (map (cs_col c) (filter (kernel_in_piece (CSR c) piece) (cs_kpts c)))) with true; [rewrite andb_true_r; reflexivity|].
    symmetry. apply mem_spec. apply in_map. apply filter_In. split; assumption.
  - cbn [andb]. apply andb_false_r.
Qed.

(** An entry covered by no interval contributes nothing and causes no error: its value is irrelevant. *)
Theorem C11_uncovered_entries_ignored : forall (T : Type) (A : arith T) (lg : legion) (c : csr T) (entry' : point -> T) (dst src : pvec) ln ln' s s1 s2,
  legion_ok lg -> constructed lg dst ->
  (forall kp, In kp (cs_kpts c) -> (exists r, In r (is_points lg (cs_rows c)) /\ contains (cs_rowptr c r) kp = true) -> entry' kp = cs_entry c kp) ->
  derived_matvec A lg (CSR c) dst src = Ok ln ->
  derived_matvec A lg (CSR (mk_csr (cs_kpts c) (cs_col c) entry' (cs_rows c) (cs_rowptr c))) dst src = Ok ln' ->
  launches_end [ln] s s1 -> launches_end [ln'] s s2 -> forall p, In p (is_points lg (pv_space dst)) -> s1 (at_point dst p) = s2 (at_point dst p).
Proof.
  intros T A lg c entry' dst src ln ln' s s1 s2 Hlg Hc Hent H H' He He' p Hp.
  destruct (constructed_pieces Hlg Hc) as [_ Hin]. apply Hin in Hp. apply in_concat in Hp. destruct Hp as [piece [Hpi Hp]].
  apply In_nth_error in Hpi. destruct Hpi as [color Hpi]. unfold pieces in Hpi.
  destruct (@C11_last_matching_row_of_each_piece T A lg c dst src ln s s1 color piece p Hlg Hc H He Hpi Hp) as [mine [Hm E1]].
  destruct (@C11_last_matching_row_of_each_piece T A lg _ dst src ln' s s2 color piece p Hlg Hc H' He' Hpi Hp) as [mine' [Hm' E2]].
  rewrite E1, E2. cbn [cs_kpts cs_col cs_entry].
  assert (Hsp : forall kp, mine kp = true -> exists r, In r (is_points lg (cs_rows c)) /\ contains (cs_rowptr c r) kp = true).
  { intros kp Hk. apply Hm in Hk. destruct Hk as [l1 [l2 [_ [Hcr _]]]]. exists p. split; [|exact Hcr].
    unfold derived_matvec, obind in H. destruct (kernel_from_range lg (CSR c) (pv_part dst)) as [kps| | |] eqn:Ek; try discriminate.
    destruct (@kernel_from_range_pieces T lg (CSR c) (pv_part dst) kps Ek) as [_ Hr]. rewrite <- Hr.
    apply (proj2 Hlg (pv_part dst) piece); [eapply nth_error_In; exact Hpi|exact Hp]. }
  assert (Em : forall kp, mine kp = mine' kp).
  { intros kp. destruct (mine kp) eqn:Q1, (mine' kp) eqn:Q2; try reflexivity; exfalso.
    - apply Hm in Q1. assert (Q : last_row {| cs_kpts := cs_kpts c; cs_col := cs_col c; cs_entry := entry'; cs_rows := cs_rows c; cs_rowptr := cs_rowptr c |} piece kp p) by exact Q1.
      apply Hm' in Q. congruence.
    - apply Hm' in Q2. assert (Q : last_row c piece kp p) by exact Q2. apply Hm in Q. congruence. }
  clear E1 E2. generalize (s (at_point dst p)) as y. intros y.
  assert (G : forall l, (forall kp, In kp l -> In kp (cs_kpts c)) -> forall y,
    fold_left (fun acc kp => aadd A acc (amul A (cs_entry c kp) (s (at_point src (cs_col c kp))))) (filter (fun kp => mine kp && mem (cs_col c kp) (is_points lg (pv_space src))) l) y =
    fold_left (fun acc kp => aadd A acc (amul A (entry' kp) (s (at_point src (cs_col c kp))))) (filter (fun kp => mine' kp && mem (cs_col c kp) (is_points lg (pv_space src))) l) y).
  { induction l as [|kp l IH]; intros Hl y0; [reflexivity|]. cbn [filter]. rewrite <- Em. destruct (mine kp) eqn:Q; cbn [andb].
    - destruct (mem (cs_col c kp) (is_points lg (pv_space src))).
      + cbn [fold_left]. rewrite (Hent kp); [|apply Hl; left; reflexivity|apply Hsp; exact Q]. apply IH. intros k Hk; apply Hl; right; exact Hk.
      + apply IH. intros k Hk; apply Hl; right; exact Hk.
    - apply IH. intros k Hk; apply Hl; right; exact Hk. }
  apply G. auto.
Qed.
(** With user-supplied partitions: if some piece of the kernel partition contains an entry that no row of the
    corresponding destination piece covers, the product aborts. *)
Theorem C11_uncovered_entry_in_supplied_partition_aborts : forall (T : Type) (A : arith T) (lg : legion) (c : csr T) (dst src : pvec) kps ghosts color piece kpiece kp,
  length kps = length (part_pieces lg (pv_part dst)) -> length ghosts = length (part_pieces lg (pv_part dst)) ->
  part_parent lg (pv_part dst) = cs_rows c ->
  nth_error (part_pieces lg (pv_part dst)) color = Some piece -> nth_error kps color = Some kpiece -> In kp kpiece ->
  (forall r, In r piece -> contains (cs_rowptr c r) kp = false) ->
  matvec A lg (CSR c) dst src kps ghosts = AssertFail.
Proof.
  intros T A lg c dst src kps ghosts color piece kpiece kp L1 L2 Hpar Hpi Hki Hk Hno. unfold matvec, pieces.
  rewrite L1, L2, Hpar, !Nat.eqb_refl. cbn [andb].
  assert (E : matvec_tasks A lg (CSR c) dst src kps ghosts = AssertFail).
  { unfold matvec_tasks, pieces. destruct (nth_error ghosts color) as [ghost|] eqn:Eg.
    2:{ apply nth_error_None in Eg. assert (color < length (part_pieces lg (pv_part dst))) by (apply nth_error_Some; congruence). lia. }
    assert (Hnth : nth_error (combine (part_pieces lg (pv_part dst)) (combine kps ghosts)) color = Some (piece, (kpiece, ghost))).
    { rewrite !combine_nth, Hpi, Hki, Eg. reflexivity. }
    revert Hnth. generalize (combine (part_pieces lg (pv_part dst)) (combine kps ghosts)) as l.
    assert (Hf : csr_task A c dst src piece ghost kpiece = AssertFail).
    { apply csr_task_fails with (kp := kp); [exact Hk|]. assert (Hs := csr_find_row_spec (cs_rowptr c) piece kp).
      destruct (csr_find_row (cs_rowptr c) piece kp) as [r|]; [|reflexivity]. destruct Hs as [l1 [l2 [-> [Hcr _]]]].
      rewrite (Hno r) in Hcr by apply in_elt. discriminate. }
    assert (Hdec : forall pc gh ks, (exists st, csr_task A c dst src pc gh ks = Ok st) \/ csr_task A c dst src pc gh ks = AssertFail).
    { intros pc gh ks. induction ks as [|k ks IH]; [left; eexists; reflexivity|]. cbn [csr_task].
      destruct (csr_find_row (cs_rowptr c) pc k); [|right; reflexivity]. destruct IH as [[st ->]| ->]; [left; eexists; reflexivity|right; reflexivity]. }
    clear - Hf Hdec. revert color. intros color l. revert color. induction l as [|[pc [ks gh]] l IH]; intros [|color] Hn; cbn in Hn; try discriminate.
    - injection Hn as -> -> ->. cbn [map sequence]. rewrite Hf. reflexivity.
    - cbn [map sequence]. destruct (Hdec pc gh ks) as [[st ->]| ->]; [|reflexivity]. cbn [obind]. rewrite (IH color Hn). reflexivity. }
  rewrite E. reflexivity.
Qed.
(** With overlapping intervals the product depends on the partition: two rows, both claiming the only stored
    entry (value 5, source element 7).  One piece: only the second row gets 35.  Two pieces: both do. *)
Definition lg2 : legion := mk_legion (fun s => if s =? 1 then [[0];[1]]%Z else []) (fun q => if (q =? 2) || (q =? 3) then 1 else 0)
  (fun q => q) (fun q => if q =? 2 then [[[0];[1]]]%Z else if q =? 3 then [[[0]];[[1]]]%Z else []).
Lemma lg2_ok : legion_ok lg2.
Proof.
  split.
  - intros s. cbn. destruct (s =? 1); [nodup_points|constructor].
  - intros q piece. cbn. destruct (q =? 2) eqn:E2.
    + cbn. intros [<-|[]]; (split; [nodup_points|intros p Hp; cbn in *; tauto]).
    + destruct (q =? 3) eqn:E3; [|intros []]. cbn.
      intros [<-|[<-|[]]]; (split; [nodup_points|intros p Hp; cbn in *; tauto]).
Qed.
Definition overlap : csr (option R) := mk_csr [[0]]%Z (fun _ => [1]%Z) (fun _ => Some 5%R) 1 (fun _ => mk_rect [0]%Z [0]%Z).
Theorem C11_overlap_makes_result_partition_dependent : exists (dst dst' src : pvec) ln ln' s,
  constructed lg2 dst /\ constructed lg2 dst' /\ same_data dst dst' /\
  derived_matvec exact lg2 (CSR overlap) dst src = Ok ln /\ derived_matvec exact lg2 (CSR overlap) dst' src = Ok ln' /\
  (forall s1, launches_end [ln] s s1 -> s1 (at_point dst [0]%Z) = Some 0%R /\ s1 (at_point dst [1]%Z) = Some 35%R) /\
  (forall s2, launches_end [ln'] s s2 -> s2 (at_point dst [0]%Z) = Some 35%R /\ s2 (at_point dst [1]%Z) = Some 35%R).
Proof.
  set (dst := mk_pvec 1 0 10 2 2). set (dst' := mk_pvec 1 0 10 3 3). set (src := mk_pvec 1 0 11 2 2).
  set (s := fun l : loc => match l with LVec 10 _ _ => Some 0%R | LVec 11 _ _ => Some 7%R | _ => None end).
  assert (Hc : constructed lg2 dst) by (exists 2, 10, 0; reflexivity).
  assert (Hc' : constructed lg2 dst') by (exists 3, 10, 0; reflexivity).
  exists dst, dst', src. eexists. eexists. exists s.
  split; [exact Hc|]. split; [exact Hc'|]. split; [repeat split|]. split; [reflexivity|]. split; [reflexivity|].
  split.
  - intros s1 He. assert (Hd : derived_matvec exact lg2 (CSR overlap) dst src = Ok _) by reflexivity.
    assert (Hg := @derived_good _ exact lg2 lg2_ok (CSR overlap) dst src _ Hc Hd).
    assert (Hgs : Forall good_launch [_]) by (constructor; [exact Hg|constructor]).
    split; rewrite (launches_end_effect Hgs He), effect_one; cbn; [reflexivity|f_equal; ring].
  - intros s2 He. assert (Hd : derived_matvec exact lg2 (CSR overlap) dst' src = Ok _) by reflexivity.
    assert (Hg := @derived_good _ exact lg2 lg2_ok (CSR overlap) dst' src _ Hc' Hd).
    assert (Hgs : Forall good_launch [_]) by (constructor; [exact Hg|constructor]).
    split; rewrite (launches_end_effect Hgs He), effect_one; cbn; f_equal; ring.
Qed.

(** ** C12.  The kernel partition derived from a row partition *)
Definition row_of {T} (lg : legion) (m : matrix T) (kp r : point) : Prop :=
  match m with
  | COO c => co_row c kp = r
  | CSR c => In r (is_points lg (cs_rows c)) /\ contains (cs_rowptr c r) kp = true
  end.
Theorem C12_kernel_partition : forall (T : Type) (lg : legion) (m : matrix T) (q : nat) (kps : list (list point)),
  legion_ok lg -> kernel_from_range lg m q = Ok kps ->
  length kps = length (part_pieces lg q) /\
  (forall color piece kpiece, nth_error (part_pieces lg q) color = Some piece -> nth_error kps color = Some kpiece ->
     forall kp, In kp kpiece <-> In kp (positions m) /\ exists r, In r piece /\ row_of lg m kp r) /\
  (* disjoint, if the row partition is and every entry has at most one row *)
  (partition_disjoint lg q -> matrix_ok lg m -> forall c d kc kd kp, nth_error kps c = Some kc -> nth_error kps d = Some kd ->
     In kp kc -> In kp kd -> c = d) /\
  (* complete, if the row partition is and every entry has a row *)
  (partition_complete lg q -> forall kp, In kp (positions m) -> (exists r, In r (is_points lg (part_parent lg q)) /\ row_of lg m kp r) ->
     exists kpiece, In kpiece kps /\ In kp kpiece).
Proof.
  intros T lg m q kps Hlg Hk. assert (L := @kernel_length T lg m q kps Hk).
  assert (P := fun c piece kpiece => @kernel_piece_in T lg Hlg m q kps c piece kpiece Hk).
  split; [exact L|]. split; [exact P|]. split.
  - intros Hd Hok c d kc kd kp Hc Hdn Hkc Hkd.
    assert (Gp : forall c kc, nth_error kps c = Some kc -> exists piece, nth_error (part_pieces lg q) c = Some piece).
    { intros c0 kc0 H0. destruct (nth_error (part_pieces lg q) c0) as [piece|] eqn:E; [eexists; reflexivity|].
      apply nth_error_None in E. assert (c0 < length kps) by (apply nth_error_Some; congruence). lia. }
    destruct (Gp c kc Hc) as [pc Hpc]. destruct (Gp d kd Hdn) as [pd Hpd].
    apply (P c pc kc Hpc Hc) in Hkc. apply (P d pd kd Hpd Hdn) in Hkd.
    destruct Hkc as [Hin [r1 [Hr1 R1]]]. destruct Hkd as [_ [r2 [Hr2 R2]]].
    assert (r1 = r2). { destruct m as [m|m]; cbn in R1, R2; [congruence|]. apply (Hok kp r1 r2 Hin); tauto. }
    subst r2. apply (Hd c d pc pd r1 Hpc Hpd Hr1 Hr2).
  - intros Hcm kp Hin [r [Hr R]]. destruct (Hcm r Hr) as [piece [Hpi Hrp]]. apply In_nth_error in Hpi. destruct Hpi as [c Hpi].
    destruct (nth_error kps c) as [kpiece|] eqn:E.
    + exists kpiece. split; [eapply nth_error_In; exact E|]. apply (P c piece kpiece Hpi E). split; [exact Hin|]. exists r. split; assumption.
    + apply nth_error_None in E. assert (c < length (part_pieces lg q)) by (apply nth_error_Some; congruence). lia.
Qed.

(** ** C13.  The ghost (source) partition derived from a row partition *)
Theorem C13_ghost_partition : forall (T : Type) (lg : legion) (m : matrix T) (space q : nat) (ghosts : list (list point)),
  legion_ok lg -> domain_partition_from_range_partition lg m space q = Ok ghosts ->
  length ghosts = length (part_pieces lg q) /\
  (forall color piece ghost, nth_error (part_pieces lg q) color = Some piece -> nth_error ghosts color = Some ghost ->
     (* exactly the columns, within the space, of the entries in rows of the piece *)
     (forall x, In x ghost <-> In x (is_points lg space) /\ exists kp r, In kp (positions m) /\ In r piece /\ row_of lg m kp r /\ column m kp = x) /\
     (* hence no entry in a row of the piece is dropped for its column, if columns lie in the space *)
     (forall kp r, In kp (positions m) -> In r piece -> row_of lg m kp r -> In (column m kp) (is_points lg space) -> In (column m kp) ghost)).
Proof.
  intros T lg m space q ghosts Hlg H. unfold domain_partition_from_range_partition, obind in H.
  destruct (kernel_from_range lg m q) as [kps| | |] eqn:Ek; try discriminate. injection H as <-.
  assert (L := @kernel_length T lg m q kps Ek). rewrite domain_from_kernel_eq. rewrite map_length. split; [exact L|].
  intros color piece ghost Hpi Hgh. rewrite nth_error_map_some in Hgh. destruct (nth_error kps color) as [kpiece|] eqn:Ekc; [|discriminate].
  cbn in Hgh. injection Hgh as <-. assert (P := @kernel_piece_in T lg Hlg m q kps color piece kpiece Ek Hpi Ekc).
  assert (Ecol : forall kp, kcol m kp = column m kp) by (intros kp; destruct m; reflexivity).
  assert (G : forall x, In x (filter (fun p => mem p (map (kcol m) kpiece)) (is_points lg space)) <->
    In x (is_points lg space) /\ exists kp r, In kp (positions m) /\ In r piece /\ row_of lg m kp r /\ column m kp = x).
  { intros x. rewrite filter_In. split; intros [H1 H2]; (split; [exact H1|]).
    - apply mem_spec in H2. apply in_map_iff in H2. destruct H2 as [kp [E Hk]]. apply P in Hk. destruct Hk as [Hk [r [Hr R]]].
      exists kp, r. rewrite <- Ecol. repeat split; assumption.
    - apply mem_spec. destruct H2 as [kp [r [Hk [Hr [R E]]]]]. apply in_map_iff. exists kp. rewrite Ecol. split; [exact E|].
      apply P. split; [exact Hk|]. exists r. split; assumption. }
  split; [exact G|]. intros kp r Hk Hr R Hx. apply G. split; [exact Hx|]. exists kp, r. repeat split; assumption.
Qed.

(** ** C14.  The row partition derived from a column partition *)
Theorem C14_row_partition_from_columns : forall (T : Type) (lg : legion) (m : matrix T) (space q : nat) (rows : list (list point)),
  range_partition_from_domain_partition lg m space q = Ok rows ->
  length rows = length (part_pieces lg q) /\
  (forall color piece rpiece, nth_error (part_pieces lg q) color = Some piece -> nth_error rows color = Some rpiece ->
     forall r, In r rpiece <-> In r (is_points lg space) /\ exists kp, In kp (positions m) /\ In (column m kp) piece /\ in_row m r kp = true).
Proof.
  intros T lg m space q rows H. unfold range_partition_from_domain_partition, obind in H. destruct m as [c|c]; cbn [kernel_from_domain range_from_kernel] in H.
  - injection H as <-. unfold image, preimage. rewrite !map_length. split; [reflexivity|].
    intros color piece rpiece Hpi Hr r. rewrite map_map, nth_error_map_some, Hpi in Hr. cbn in Hr. injection Hr as <-. rewrite filter_In, mem_spec, in_map_iff.
    cbn [positions column in_row]. split; intros [H1 [kp H2]]; (split; [exact H1|]); exists kp; rewrite filter_In, mem_spec in *;
      destruct (point_eq_dec (co_row c kp) r); intuition congruence.
  - apply oassert_ok in H. destruct H as [Es H]. apply Nat.eqb_eq in Es. injection H as <-. unfold preimage_range, preimage. rewrite !map_length. split; [reflexivity|].
    intros color piece rpiece Hpi Hr r. rewrite map_map, nth_error_map_some, Hpi in Hr. cbn in Hr. injection Hr as <-. rewrite filter_In, existsb_exists.
    cbn [positions column in_row]. rewrite Es. split; intros [H1 [kp H2]]; (split; [exact H1|]); exists kp; rewrite filter_In, mem_spec in *; tauto.
Qed.
Theorem C14_monotone : forall (T : Type) (lg : legion) (m : matrix T) (space q q' : nat) rows rows' color piece piece' rpiece rpiece',
  range_partition_from_domain_partition lg m space q = Ok rows -> range_partition_from_domain_partition lg m space q' = Ok rows' ->
  nth_error (part_pieces lg q) color = Some piece -> nth_error (part_pieces lg q') color = Some piece' -> incl piece piece' ->
  nth_error rows color = Some rpiece -> nth_error rows' color = Some rpiece' -> incl rpiece rpiece'.
Proof.
  intros T lg m space q q' rows rows' color piece piece' rpiece rpiece' H H' Hp Hp' Hi Hr Hr' r Hin.
  destruct (C14_row_partition_from_columns lg m space q H) as [_ P]. destruct (C14_row_partition_from_columns lg m space q' H') as [_ P'].
  apply (P color piece rpiece Hp Hr) in Hin. apply (P' color piece' rpiece' Hp' Hr'). destruct Hin as [H1 [kp [H2 [H3 H4]]]].
  split; [exact H1|]. exists kp. auto.
Qed.
(** A product driven by a column partition [q] of the source: kernel partition derived from [q], ghost partition
    [q] itself, destination partitioned by the row partition derived from [q] (which must then be complete and
    disjoint).  Every row it owns is computed completely. *)
Theorem C14_column_partitioned_product : forall (T : Type) (A : arith T) (lg : legion) (m : matrix T) (q : nat) (dst src : pvec) kps ln s s',
  legion_ok lg -> constructed lg dst -> matrix_ok lg m ->
  kernel_from_domain lg m q = Ok kps ->
  range_partition_from_domain_partition lg m (pv_space dst) q = Ok (part_pieces lg (pv_part dst)) ->
  part_parent lg q = pv_space src -> partition_complete lg q ->
  matvec A lg m dst src kps (part_pieces lg q) = Ok ln -> launches_end [ln] s s' ->
  forall p, In p (is_points lg (pv_space dst)) ->
    s' (at_point dst p) = add_products A m (fun x => s (at_point src x)) (s (at_point dst p)) (row_entries lg m (pv_space src) p).
Proof.
  intros T A lg m q dst src kps ln s s' Hlg Hc Hok Hk Hrow Hpar Hcm H He p Hp.
  destruct (constructed_pieces Hlg Hc) as [Hnd Hin]. assert (Hp0 := Hp). apply Hin in Hp. apply in_concat in Hp. destruct Hp as [piece [Hpi Hp]].
  apply In_nth_error in Hpi. destruct Hpi as [color Hpi]. unfold pieces in Hpi.
  destruct (C14_row_partition_from_columns lg m (pv_space dst) q Hrow) as [L P].
  destruct (nth_error (part_pieces lg q) color) as [ghost|] eqn:Eg.
  2:{ apply nth_error_None in Eg. assert (color < length (part_pieces lg (pv_part dst))) by (apply nth_error_Some; congruence). lia. }
  assert (Ekp : kps = map (fun g => filter (fun kp => mem (column m kp) g) (positions m)) (part_pieces lg q)).
  { destruct m; cbn in Hk; injection Hk as <-; reflexivity. }
  assert (Hkc : nth_error kps color = Some (filter (fun kp => mem (column m kp) ghost) (positions m))) by (rewrite Ekp, nth_error_map_some, Eg; reflexivity).
  rewrite (@general_effect T A lg Hlg m dst src kps _ ln s s' Hc H He color piece _ ghost p Hpi Hkc Eg Hp).
  f_equal. unfold row_entries. rewrite filter_filter_and. apply filter_ext_in. intros kp Hkp.
  assert (Hnp : NoDup piece) by (apply (proj2 Hlg (pv_part dst)); eapply nth_error_In; exact Hpi).
  assert (Hincp : incl piece (is_points lg (pv_space dst))).
  { intros r Hr. assert (X := proj2 (proj2 Hlg (pv_part dst) piece (nth_error_In _ _ Hpi)) r Hr). rewrite (constructed_parent Hc) in X. exact X. }
  assert (Hrows : forall c, m = CSR c -> pv_space dst = cs_rows c).
  { intros c ->. unfold matvec in H. destruct ((length kps =? _) && _ && _) eqn:Eb in H; [|discriminate]. apply andb_true_iff in Eb. destruct Eb as [_ Eb].
    apply Nat.eqb_eq in Eb. rewrite <- (constructed_parent Hc). exact Eb. }
  assert (Hgs : incl ghost (is_points lg (pv_space src))).
  { intros x Hx. rewrite <- Hpar. apply (proj2 (proj2 Hlg q ghost (nth_error_In _ _ Eg)) x Hx). }
  assert (Hcr : in_row m p kp = credited_b m piece p kp).
  { destruct m as [c|c]; cbn [in_row credited_b]; [reflexivity|]. specialize (Hrows c eq_refl).
    assert (X := csr_find_row_spec (cs_rowptr c) piece kp). destruct (csr_find_row (cs_rowptr c) piece kp) as [r|].
    - destruct X as [l1 [l2 [E [Hcr _]]]]. destruct (point_eq_dec r p) as [->|N]; [exact Hcr|].
      destruct (contains (cs_rowptr c p) kp) eqn:Ec; [|reflexivity]. exfalso. apply N. cbn in Hok.
      apply (Hok kp r p Hkp); try assumption; rewrite <- Hrows; apply Hincp; [rewrite E; apply in_elt|exact Hp].
    - apply X. exact Hp. }
  rewrite <- Hcr. destruct (in_row m p kp) eqn:Er; cbn [andb]; [|rewrite andb_false_r; reflexivity].
  destruct (mem (column m kp) (is_points lg (pv_space src))) eqn:Ex.
  - apply mem_spec in Ex. rewrite <- Hpar in Ex. destruct (Hcm _ Ex) as [g [Hg Hxg]]. apply In_nth_error in Hg. destruct Hg as [d Hg].
    assert (Hd : exists rp, nth_error (part_pieces lg (pv_part dst)) d = Some rp).
    { destruct (nth_error (part_pieces lg (pv_part dst)) d) as [rp|] eqn:E; [eexists; reflexivity|]. apply nth_error_None in E.
      assert (d < length (part_pieces lg q)) by (apply nth_error_Some; congruence). lia. }
    destruct Hd as [rp Hd]. assert (Hprp : In p rp).
    { apply (P d g rp Hg Hd). split; [exact Hp0|]. exists kp. auto. }
    assert (Hdis : partition_disjoint lg (pv_part dst)).
    { destruct Hc as [qq [rr [ff Hmk]]]. assert (Hex : exists v, make_vector lg qq rr ff = Ok v) by (eexists; exact Hmk).
      destruct (C07_vector_needs_complete_disjoint_partition lg qq rr ff) as [[X _] _]. destruct (X Hex) as [Y _].
      unfold make_vector, oassert in Hmk. destruct (is_disjoint lg qq); [|discriminate]. destruct (is_complete lg qq); [|discriminate]. injection Hmk as <-. exact Y. }
    assert (d = color) by (apply (Hdis d color rp piece p Hd Hpi Hprp Hp)). subst d. assert (g = ghost) by congruence. subst g.
    apply mem_spec in Hxg. rewrite Hxg. reflexivity.
  - apply mem_false in Ex. replace (mem (column m kp) ghost) with false; [reflexivity|]. symmetry. apply mem_false. intros Y. apply Ex, Hgs, Y.
Qed.

(** ** Examples: a 2 x 2 matrix [[2,-1],[-1,2]] stored both ways, on the two partitions of [lg2] *)
Definition m2_coo : coo (option R) := mk_coo [[0];[1];[2];[3]]%Z
  (fun kp => if mem kp [[0];[1]]%Z then [0]%Z else [1]%Z)
  (fun kp => if mem kp [[0];[2]]%Z then [0]%Z else [1]%Z)
  (fun kp => if mem kp [[0];[3]]%Z then Some 2%R else Some (-1)%R).
Definition m2_csr : csr (option R) := mk_csr [[0];[1];[2];[3]]%Z
  (fun kp => if mem kp [[0];[2]]%Z then [0]%Z else [1]%Z)
  (fun kp => if mem kp [[0];[3]]%Z then Some 2%R else Some (-1)%R) 1
  (fun r => if mem r [[0]]%Z then mk_rect [0]%Z [1]%Z else mk_rect [2]%Z [3]%Z).
Definition v2 (q r : nat) : pvec := mk_pvec 1 0 r q q.
Example C09_C10_example :
  rows_disjoint lg2 m2_csr /\ rows_cover lg2 m2_csr /\
  forall m q, (m = COO m2_coo \/ m = CSR m2_csr) -> (q = 2 \/ q = 3) ->
    constructed lg2 (v2 q 10) /\ matrix_ok lg2 m /\
    (exists ln, derived_matvec exact lg2 m (v2 q 10) (v2 q 11) = Ok ln) /\
    forall ln s s', derived_matvec exact lg2 m (v2 q 10) (v2 q 11) = Ok ln -> launches_end [ln] s s' ->
      holds lg2 s (v2 q 10) (fun _ => 100%R) -> holds lg2 s (v2 q 11) (fun p => match p with [i] => IZR (i + 1) | _ => 0%R end) ->
      s' (at_point (v2 q 10) [0]%Z) = Some 100%R /\ s' (at_point (v2 q 10) [1]%Z) = Some 103%R.
Proof.
  assert (Hdis : rows_disjoint lg2 m2_csr).
  { intros kp r1 r2 Hk H1 H2. cbn in Hk, H1, H2. intros C1 C2.
    destruct H1 as [<-|[<-|[]]], H2 as [<-|[<-|[]]]; try reflexivity; exfalso;
    destruct Hk as [<-|[<-|[<-|[<-|[]]]]]; cbn in C1, C2; discriminate. }
  assert (Hcov : rows_cover lg2 m2_csr).
  { intros kp Hk. cbn in Hk. destruct Hk as [<-|[<-|[<-|[<-|[]]]]]; [exists [0]%Z|exists [0]%Z|exists [1]%Z|exists [1]%Z]; (split; [cbn; tauto|reflexivity]). }
  split; [exact Hdis|]. split; [exact Hcov|].
  intros m q Hm Hq.
  assert (Hok : matrix_ok lg2 m) by (destruct Hm as [-> | ->]; [exact I|exact Hdis]).
  assert (Hc : constructed lg2 (v2 q 10)) by (destruct Hq as [-> | ->]; [exists 2, 10, 0|exists 3, 10, 0]; reflexivity).
  split; [exact Hc|]. split; [exact Hok|]. split.
  { destruct Hm as [-> | ->], Hq as [-> | ->]; eexists; reflexivity. }
  intros ln s s' H He Hy Hx.
  assert (U : holds lg2 s' (v2 q 10) (fun p => 100 + Rsum (fun kp => if in_row m p kp then (if mem kp [[0];[3]]%Z then 2 else -1) * match column m kp with [i] => IZR (i + 1) | _ => 0%R end else 0) (positions m))%R).
  { apply (@C09_C10_matvec_exact lg2 m (v2 q 10) (v2 q 11) ln s s' _ _ (fun kp => if mem kp [[0];[3]]%Z then 2%R else (-1)%R) lg2_ok Hc Hok H He Hy Hx).
    intros kp Hk. destruct Hm as [-> | ->]; cbn in Hk; destruct Hk as [<-|[<-|[<-|[<-|[]]]]]; (split; [reflexivity|cbn; tauto]). }
  assert (P0 : In [0]%Z (is_points lg2 (pv_space (v2 q 10)))) by (cbn; tauto).
  assert (P1 : In [1]%Z (is_points lg2 (pv_space (v2 q 10)))) by (cbn; tauto).
  rewrite (U _ P0), (U _ P1). destruct Hm as [-> | ->]; cbn [positions co_kpts cs_kpts m2_coo m2_csr]; rewrite !Rsum_cons, !Rsum_nil; cbn -[IZR Rplus Rmult]; split; f_equal; lra.
Qed.
Example C12_C13_example : kernel_from_range lg2 (CSR m2_csr) 3 = Ok [[[0];[1]];[[2];[3]]]%Z /\
  domain_partition_from_range_partition lg2 (CSR m2_csr) 1 3 = Ok [[[0];[1]];[[0];[1]]]%Z /\
  kernel_from_range lg2 (COO m2_coo) 3 = Ok [[[0];[1]];[[2];[3]]]%Z.
Proof. repeat split. Qed.
(** a diagonal matrix: the row partition derived from the singleton column partition is the singleton partition *)
Example C14_example : let m := COO (mk_coo [[0];[1]]%Z (fun kp => kp) (fun kp => kp) (fun _ => Some 3%R)) in
  exists kps ln, kernel_from_domain lg2 m 3 = Ok kps /\
  range_partition_from_domain_partition lg2 m 1 3 = Ok (part_pieces lg2 3) /\ partition_complete lg2 3 /\
  matvec exact lg2 m (v2 3 10) (v2 3 11) kps (part_pieces lg2 3) = Ok ln.
Proof.
  eexists. eexists. split; [reflexivity|]. split; [reflexivity|]. split; [|reflexivity].
  apply is_complete_spec. reflexivity.
Qed.
