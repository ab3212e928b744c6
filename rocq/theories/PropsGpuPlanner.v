(** PropsGpuPlanner: property C75.  Matrix-vector products and solver runs whose point tasks the mapper places on CPUs or
    GPUs, task by task. *)
From Coq Require Import Reals Lra Classical FunctionalExtensionality.
From Verif Require Import Base Index Outcome Sched Async Arith Launch Vector PartitionSpec VectorFacts LaunchFacts Builder BuilderFacts Exec
  ExactSum Matrix MatrixSpec MatrixFacts MatvecFacts PropsVector PropsMatrix Planner PlannerFacts PlannerSetup Solvers PropsPlanner PropsSolver Gpu GpuPlanner GpuPlannerFacts.
Set Implicit Arguments.

(** partition of component [i] of the system *)
Definition part_of {T} (cs : list (setup_call T)) (i : nat) : nat := pv_part (nth i (sols_of cs) dummy_vec).
(** Every point task the mapper places on a GPU gets pieces it can handle (matrix number [j] is the [j]-th one added,
    colours are those of the partition of its range component). *)
Definition gpu_usable {T} (lg : legion) (mp : mapping T) (cs : list (setup_call T)) : Prop :=
  forall st j m d r kps c piece kpiece ghost, nth_error (mats_of cs) j = Some (m, d, r) -> kernel_from_range lg m (part_of cs r) = Ok kps ->
    nth_error (part_pieces lg (part_of cs r)) c = Some piece -> nth_error kps c = Some kpiece ->
    nth_error (domain_from_kernel lg m (space_of cs d) kps) c = Some ghost -> on_gpu mp st j c = true -> gpu_legal m piece kpiece ghost = true.
(** a CSR matrix is the first matrix added to its block row *)
Definition csr_leads {T} (cs : list (setup_call T)) : Prop :=
  forall before m d r after, mats_of cs = before ++ (m, d, r) :: after -> is_csr m = true -> forall m' d' r', In (m', d', r') before -> r' <> r.
(** The block product with mapping [mp], in element [p] of component [i], which is in piece [c] of its partition: every
    matrix of the block row in turn, a GPU-resident CSR matrix starting afresh. *)
Definition mapped_product {T} (A : arith T) (lg : legion) (mp : mapping T) (cs : list (setup_call T)) (st : ist) (x : nat -> point -> T) (i c : nat) (p : point) : T :=
  fold_left (fun acc jm => let '(j, (m, d, r)) := jm in
      if r =? i then mapped_value A mp st j c m (x d) acc (row_entries lg m (space_of cs d) p) p else acc)
    (combine (seq 0 (length (mats_of cs))) (mats_of cs)) (a0 A).

Section Planner.
Variable T : Type.
Variable A : arith T.
Variable lg : legion.
Hypothesis Hlg : legion_ok lg.
Variable mp : mapping T.
Variable pl : planner T.
Variables n nv : nat.
Hypothesis Hrd : ready lg pl n nv.
Notation store := (store loc T).
Notation cell := (cell pl).
Notation pts := (pts lg pl).
Notation updates := (@updates T lg pl n).

Hypothesis Hgpu : forall st j pm vi vj, nth_error (pl_mats pl) j = Some pm -> vi < nv -> vj < nv ->
  gpu_ready lg mp st j (pm_matrix pm) (vec pl vi (pm_range pm)) (vec pl vj (pm_domain pm)) (pm_kernel pm).

(** fold over the matrices, each with its number *)
Definition mapped_fold (st : ist) (x : nat -> point -> T) (i c : nat) (p : point) (l : list (nat * pl_matrix T)) : T :=
  fold_left (fun acc jpm => if pm_range (snd jpm) =? i
     then mapped_value A mp st (fst jpm) c (pm_matrix (snd jpm)) (x (pm_domain (snd jpm))) acc
            (row_entries lg (pm_matrix (snd jpm)) (nth (pm_domain (snd jpm)) (pl_spaces pl) 0) p) p else acc) l (a0 A).
(** element [p] of component [i] is in piece [c] *)
Definition in_colour (vi i c : nat) (p : point) : Prop := exists piece, nth_error (pieces lg (vec pl vi i)) c = Some piece /\ In p piece.
Definition mapped_updates (vi : nat) (g : nat -> nat -> point -> T) (s s' : store) : Prop :=
  (forall i c p, i < n -> in_colour vi i c p -> s' (cell vi i p) = g i c p) /\ (forall l, ~ in_vector lg pl n vi l -> s' l = s l).

Lemma in_colour_pts vi i c p : vi < nv -> i < n -> in_colour vi i c p -> In p (pts i).
Proof.
  intros Hv Hi [piece [Hp Hin]]. rewrite <- (vec_space Hrd Hv Hi). destruct (constructed_pieces Hlg (rd_constructed Hrd Hv Hi)) as [_ H].
  apply H. apply in_concat. exists piece. split; [eapply nth_error_In; exact Hp|exact Hin].
Qed.
Lemma pts_colour vi i p : vi < nv -> i < n -> In p (pts i) -> exists c, in_colour vi i c p.
Proof.
  intros Hv Hi Hp. rewrite <- (vec_space Hrd Hv Hi) in Hp. destruct (constructed_pieces Hlg (rd_constructed Hrd Hv Hi)) as [_ H].
  apply H in Hp. apply in_concat in Hp. destruct Hp as [piece [H1 H2]]. apply In_nth_error in H1. destruct H1 as [c H1]. exists c, piece. auto.
Qed.

Lemma mapped_value_ext st j c m x y acc ks p : (forall kp, In kp ks -> x (PropsMatrix.column m kp) = y (PropsMatrix.column m kp)) ->
  mapped_value A mp st j c m x acc ks p = mapped_value A mp st j c m y acc ks p.
Proof.
  intros H. unfold mapped_value. destruct (on_gpu mp st j c).
  - rewrite (map_ext_in (fun kp => amul A (value m kp) (x (PropsMatrix.column m kp))) (fun kp => amul A (value m kp) (y (PropsMatrix.column m kp)))); [reflexivity|].
    intros kp Hk. rewrite (H kp Hk). reflexivity.
  - unfold add_products. apply fold_left_ext. intros a kp Hk. rewrite (H kp Hk). reflexivity.
Qed.

Lemma combine_seq_split X (l : list X) d j x rest : combine (seq 0 (length l)) l = d ++ (j, x) :: rest -> nth_error l j = Some x.
Proof.
  intros E. assert (H : nth_error (combine (seq 0 (length l)) l) (length d) = Some (j, x)) by (rewrite E, nth_error_app2, Nat.sub_diag by lia; reflexivity).
  rewrite combine_seq_index in H. destruct (nth_error l (length d)) as [y|] eqn:Ey; [|discriminate]. injection H as <- <-. exact Ey.
Qed.

Lemma wp_mapped_matvec vi vj : vi < nv -> vj < nv -> vi <> vj -> forall (Q : unit -> ist -> store -> Prop) st s,
  (forall s', mapped_updates vi (fun i c p => mapped_fold st (fun i p => s (cell vj i p)) i c p (combine (seq 0 (length (pl_mats pl))) (pl_mats pl))) s s' -> Q tt st s') ->
  wp (mapped_pl_matvec A lg mp pl vi vj) Q st s.
Proof.
  intros Hv Hw Hne Q st s HQ. unfold mapped_pl_matvec. apply wp_bind. apply (wp_zero_fill A Hlg Hrd); [exact Hv|]. intros s0 [Z1 Z2].
  set (jms := combine (seq 0 (length (pl_mats pl))) (pl_mats pl)) in *.
  set (val := fun (done : list (nat * pl_matrix T)) i c p => mapped_fold st (fun i p => s (cell vj i p)) i c p done).
  set (I := fun (done : list (nat * pl_matrix T)) (st1 : ist) (s1 : store) => st1 = st /\ mapped_updates vi (val done) s s1).
  eapply wp_conseq; [apply (@wp_mfor T (nat * pl_matrix T) _ I jms)|].
  - intros done [j pm] rest st1 s1 E [-> [I1 I2]]. cbn [fst snd].
    assert (Hj : nth_error (pl_mats pl) j = Some pm) by (eapply combine_seq_split; exact E).
    assert (Hin : In pm (pl_mats pl)) by (eapply nth_error_In; exact Hj).
    destruct (rd_mats Hrd _ Hin) as [M1 [M2 [M3 [M4 M5]]]].
    apply wp_bind. eapply wp_lift; [apply (get_vector_vec Hrd); assumption|].
    apply wp_bind. eapply wp_lift; [apply (get_vector_vec Hrd); assumption|].
    destruct (rd_layout Hrd Hv M3) as [_ Ep]. destruct (rd_layout Hrd Hw M2) as [Es _].
    assert (K : kernel_from_range lg (pm_matrix pm) (pv_part (vec pl vi (pm_range pm))) = Ok (pm_kernel pm)) by (rewrite Ep; exact M4).
    assert (G : pm_ghost pm = domain_from_kernel lg (pm_matrix pm) (pv_space (vec pl vj (pm_domain pm))) (pm_kernel pm)) by (rewrite Es; exact M5).
    rewrite G.
    assert (Hd : pv_region (vec pl vi (pm_range pm)) <> pv_region (vec pl vj (pm_domain pm)) \/ pv_fid (vec pl vi (pm_range pm)) <> pv_fid (vec pl vj (pm_domain pm))).
    { destruct (Nat.eq_dec (pv_region (vec pl vi (pm_range pm))) (pv_region (vec pl vj (pm_domain pm)))) as [E1|E1]; [|left; exact E1].
      right. intros E2. apply Hne. apply (rd_distinct Hrd Hv M3 Hw M2 E1 E2). }
    destruct (@mapped_matvec_accepts T A lg mp st j (pm_matrix pm) (vec pl vi (pm_range pm)) (vec pl vj (pm_domain pm)) (pm_kernel pm) M1 K Hd (Hgpu st j Hj Hv Hw)) as [ln Hln].
    destruct (@mapped_matvec_facts T A lg Hlg mp st j (pm_matrix pm) (vec pl vi (pm_range pm)) (vec pl vj (pm_domain pm)) (pm_kernel pm)
      (rd_constructed Hrd Hv M3) M1 K Hd ln Hln) as [Hgood Heff].
    unfold wp. exists tt, [ln], st. split; [unfold issue; rewrite Hln; reflexivity|]. split; [constructor; [exact Hgood|constructor]|].
    split; [reflexivity|]. rewrite effect_one. destruct (Heff _ (interleave_concat _) s1) as [D1 D2].
    rewrite (vec_space Hrd Hv M3) in D2. rewrite Es in D1.
    split.
    + intros i c p Hi Hp. unfold val, mapped_fold. rewrite fold_left_app. cbn [fold_left fst snd]. fold (mapped_fold st (fun i p => s (cell vj i p)) i c p done). fold (val done i c p).
      destruct (pm_range pm =? i) eqn:Er.
      * apply Nat.eqb_eq in Er. subst i. assert (Hp' := Hp). destruct Hp' as [piece [Hp1 Hp2]]. unfold PlannerFacts.cell at 1. rewrite (D1 c piece p Hp1 Hp2).
        change (at_point (vec pl vi (pm_range pm)) p) with (cell vi (pm_range pm) p). rewrite (I1 _ _ _ Hi Hp).
        apply mapped_value_ext. intros kp Hk. apply filter_In in Hk. destruct Hk as [_ Hk]. apply andb_true_iff in Hk. destruct Hk as [_ Hk]. apply mem_spec in Hk.
        change (at_point (vec pl vj (pm_domain pm)) (PropsMatrix.column (pm_matrix pm) kp)) with (cell vj (pm_domain pm) (PropsMatrix.column (pm_matrix pm) kp)).
        apply I2. apply (other_cell Hrd); auto.
      * rewrite D2; [apply (I1 i c p); assumption|]. intros q Hq Eq. apply (cell_inj Hrd) in Eq; auto. apply Nat.eqb_neq in Er. destruct Eq as [_ [Eq _]]. congruence.
    + intros l Hl. rewrite D2; [apply I2; exact Hl|]. intros q Hq ->. apply Hl. exists (pm_range pm), q. auto.
  - split; [reflexivity|]. split; [|exact Z2]. intros i c p Hi Hp. apply Z1; [exact Hi|]. apply (in_colour_pts Hv Hi Hp).
  - intros u st1 s1 [-> U]. destruct u. apply HQ. exact U.
Qed.
End Planner.

(** ** From the user's calls to the planner *)
Section Bridge.
Variable T : Type.
Variable A : arith T.
Variable lg : legion.
Hypothesis Hlg : legion_ok lg.
Variable mp : mapping T.
Variables (cs : list (setup_call T)) (nw : nat) (pl : planner T).
Hypothesis Hw : working lg cs nw pl.
Hypothesis Hu : gpu_usable lg mp cs.

Lemma sols_vec i : i < length (sols_of cs) -> nth i (sols_of cs) dummy_vec = vec pl 0 i.
Proof.
  intros Hi. destruct (working_ready Hw) as [_ [_ [C3 _]]].
  unfold vec, get_vector, vector_row. rewrite C3. cbn [obind]. rewrite (nth_error_nth' (sols_of cs) dummy_vec Hi). reflexivity.
Qed.
Lemma layout_of i : i < length (sols_of cs) -> nth i (pl_spaces pl) 0 = space_of cs i /\ nth i (pl_parts pl) 0 = part_of cs i.
Proof.
  intros Hi. destruct (working_ready Hw) as [R _]. unfold space_of, part_of. rewrite (sols_vec Hi).
  destruct (rd_layout R (vi := 0) (i := i)) as [E1 E2]; [lia|exact Hi|]. rewrite E1, E2. auto.
Qed.
Lemma planner_gpu_ready st j pm vi vj : nth_error (pl_mats pl) j = Some pm -> vi < 2 + nw -> vj < 2 + nw ->
  gpu_ready lg mp st j (pm_matrix pm) (vec pl vi (pm_range pm)) (vec pl vj (pm_domain pm)) (pm_kernel pm).
Proof.
  intros Hj Hv Hv'. destruct (working_ready Hw) as [R [Em _]]. destruct (rd_mats R pm (nth_error_In _ _ Hj)) as [M1 [M2 [M3 [M4 M5]]]].
  destruct (layout_of M3) as [_ L3]. destruct (layout_of M2) as [L2 _].
  intros c piece kpiece ghost H1 H2 H3 H4. unfold pieces in H1. destruct (rd_layout R Hv M3) as [_ Ep]. destruct (rd_layout R Hv' M2) as [Es _].
  rewrite Ep, L3 in H1. rewrite Es, L2 in H3. rewrite L3 in M4.
  refine (Hu st j c _ M4 H1 H2 H3 H4). rewrite <- Em, nth_error_map_some, Hj. reflexivity.
Qed.
Lemma combine_seq_map X Y (f : X -> Y) (l : list X) k : combine (seq k (length (map f l))) (map f l) = map (fun jx => (fst jx, f (snd jx))) (combine (seq k (length l)) l).
Proof. revert k. induction l as [|a l IH]; intros k; [reflexivity|]. cbn. f_equal. apply IH. Qed.
Lemma mapped_fold_product st x y i c p : (forall d q, d < length (sols_of cs) -> In q (pts lg pl d) -> x d q = y d q) ->
  mapped_fold A lg mp pl st x i c p (combine (seq 0 (length (pl_mats pl))) (pl_mats pl)) = mapped_product A lg mp cs st y i c p.
Proof.
  intros Hx. destruct (working_ready Hw) as [R [Em _]]. unfold mapped_product, mapped_fold. rewrite <- Em, combine_seq_map.
  generalize (a0 A) as acc. assert (Hin : forall jpm, In jpm (combine (seq 0 (length (pl_mats pl))) (pl_mats pl)) -> In (snd jpm) (pl_mats pl)).
  { intros [j pm] H. apply in_combine_r in H. exact H. }
  revert Hin. generalize (combine (seq 0 (length (pl_mats pl))) (pl_mats pl)) as l.
  induction l as [|[j pm] l IH]; intros Hin acc; [reflexivity|]. cbn [map fold_left fst snd]. rewrite IH by (intros q Hq; apply Hin; right; exact Hq). f_equal.
  destruct (pm_range pm =? i); [|reflexivity]. destruct (rd_mats R pm (Hin _ (or_introl eq_refl))) as [M1 [M2 [M3 [M4 M5]]]].
  destruct (layout_of M2) as [L2 _]. rewrite L2. apply mapped_value_ext. intros kp Hk. apply filter_In in Hk. destruct Hk as [_ Hk].
  apply andb_true_iff in Hk. destruct Hk as [_ Hk]. apply mem_spec in Hk. apply Hx; [exact M2|]. unfold pts. rewrite L2. exact Hk.
Qed.
End Bridge.

(** ** C75, the product: with any mapping the GPU tasks can carry out, the product is accepted, and every legal execution
    leaves, in every element, the value of its piece's chain of CPU and GPU tasks. *)
Theorem C75_mapped_product : forall (T : Type) (A : arith T) (lg : legion) (mp : mapping T) (cs : list (setup_call T)) (nw : nat) (pl : planner T) (dst src : nat),
  legion_ok lg -> working lg cs nw pl -> gpu_usable lg mp cs -> dst < 2 + nw -> src < 2 + nw -> dst <> src ->
  (forall st, accepted (mapped_pl_matvec A lg mp pl dst src) st) /\
  (forall st s st' s' x, ends (mapped_pl_matvec A lg mp pl dst src) st s tt st' s' ->
    (forall d w q, component pl src d w -> In q (is_points lg (pv_space w)) -> x d q = s (at_point w q)) ->
    (forall i v c piece p, component pl dst i v -> nth_error (part_pieces lg (pv_part v)) c = Some piece -> In p piece ->
       s' (at_point v p) = mapped_product A lg mp cs st x i c p) /\
    (forall l, ~ of_vector lg pl dst l -> s' l = s l)).
Proof.
  intros T A lg mp cs nw pl dst src Hlg Hw Hu Hd Hs Hne. destruct (working_ready Hw) as [R [Em _]].
  assert (Hg := fun st j pm vi vj => @planner_gpu_ready T lg mp cs nw pl Hw Hu st j pm vi vj).
  split.
  - intros st. apply (@wp_accepted T unit _ (fun _ _ _ => True) st (fun _ => a0 A)). apply (wp_mapped_matvec A Hlg R Hg); auto.
  - intros st s st' s' x He Hx.
    assert (W : wp (mapped_pl_matvec A lg mp pl dst src) (fun _ _ s1 => mapped_updates lg pl (length (sols_of cs)) dst
       (fun i c p => mapped_fold A lg mp pl st (fun i p => s (cell pl src i p)) i c p (combine (seq 0 (length (pl_mats pl))) (pl_mats pl))) s s1) st s).
    { apply (wp_mapped_matvec A Hlg R Hg); auto. }
    destruct (wp_ends W He) as [s1 [[U1 U2] E]]. split.
    + intros i v c piece p Hc Hpc Hp. destruct (proj1 (component_iff Hw i v Hd) Hc) as [Hi ->].
      rewrite E. change (at_point (vec pl dst i) p) with (cell pl dst i p). rewrite (U1 i c p Hi); [|exists piece; auto].
      apply (@mapped_fold_product T A lg mp cs nw pl Hw). intros d q Hdd Hq. symmetry.
      assert (Hcs : component pl src d (vec pl src d)) by (apply (component_iff Hw); auto).
      rewrite (Hx _ _ _ Hcs); [reflexivity|]. rewrite (component_points Hw Hs Hcs). exact Hq.
    + intros l Hl. rewrite E. apply U2. intros Hin. apply Hl. apply (of_vector_iff Hw l Hd). exact Hin.
Qed.

(** ** Exact arithmetic *)
Section Exact.
Notation T := (option R).
Variable lg : legion.
Variable mp : mapping T.
Hypothesis Hmp : legal_mapping exact mp.

Lemma add_products_exact (m : matrix T) x y ks : add_products exact m x y ks = lift2 Rplus y (osum (map (fun kp => amul exact (value m kp) (x (PropsMatrix.column m kp))) ks)).
Proof.
  unfold add_products. revert y. induction ks as [|k ks IH]; intros y; cbn [fold_left map]; [cbn; symmetry; apply oplus_0_r|].
  rewrite IH. cbn [osum fold_right]. fold (osum (map (fun kp => amul exact (value m kp) (x (PropsMatrix.column m kp))) ks)). cbn [exact aadd]. symmetry. apply oplus_assoc.
Qed.
Lemma mapped_value_exact st j c m x y ks p : is_csr m && on_gpu mp st j c = false \/ y = Some 0%R ->
  mapped_value exact mp st j c m x y ks p = add_products exact m x y ks.
Proof.
  intros H. rewrite add_products_exact. unfold mapped_value. destruct (on_gpu mp st j c) eqn:Eg; [|apply add_products_exact]. cbv zeta.
  rewrite (reduces_to_exact (Hmp st j c p _)). destruct (is_csr m) eqn:Ec.
  - destruct H as [H| ->]; [discriminate|]. symmetry. apply oplus_0_l.
  - destruct ks as [|k ks]; [cbn; symmetry; apply oplus_0_r|reflexivity].
Qed.
Lemma mapped_product_exact st cs x i c p : csr_leads cs -> mapped_product exact lg mp cs st x i c p = block_product exact lg cs x i p.
Proof.
  intros Hc. unfold mapped_product, block_product.
  set (f := fun acc (mdr : matrix T * nat * nat) => let '(m, d, r) := mdr in if r =? i then add_products exact m (x d) acc (row_entries lg m (space_of cs d) p) else acc).
  assert (G : forall rest done k, mats_of cs = done ++ rest -> forall acc, ((forall m d r, In (m, d, r) done -> r <> i) -> acc = Some 0%R) ->
    fold_left (fun acc jm => let '(j, (m, d, r)) := jm in if r =? i then mapped_value exact mp st j c m (x d) acc (row_entries lg m (space_of cs d) p) p else acc)
      (combine (seq k (length rest)) rest) acc = fold_left f rest acc).
  { induction rest as [|[[m d] r] rest IH]; intros done k E acc Hacc; [reflexivity|]. cbn [length seq combine fold_left].
    assert (Es : (if r =? i then mapped_value exact mp st k c m (x d) acc (row_entries lg m (space_of cs d) p) p else acc) = f acc (m, d, r)).
    { unfold f. destruct (r =? i) eqn:Er; [|reflexivity]. apply Nat.eqb_eq in Er. subst r. apply mapped_value_exact.
      destruct (is_csr m) eqn:Em; [right|left; reflexivity]. apply Hacc. intros m' d' r' Hin. apply (Hc done m d i rest E Em m' d' r' Hin). }
    rewrite Es. apply (IH (done ++ [(m, d, r)])); [rewrite <- app_assoc; exact E|]. intros Hno. unfold f.
    assert (Hr : r <> i) by (apply (Hno m d r); apply in_or_app; right; left; reflexivity). apply Nat.eqb_neq in Hr. rewrite Hr. apply Hacc.
    intros m' d' r' Hin. apply (Hno m' d'). apply in_or_app. left. exact Hin. }
  apply (G (mats_of cs) [] 0); [reflexivity|]. reflexivity.
Qed.
End Exact.

(** In exact arithmetic the mapping does not matter, provided a CSR matrix leads its block row. *)
Theorem C75_mapped_product_exact : forall (lg : legion) (mp : mapping (option R)) (cs : list (setup_call (option R))) (nw : nat) (pl : planner (option R)) (dst src : nat) st s st' s' x,
  legion_ok lg -> working lg cs nw pl -> gpu_usable lg mp cs -> legal_mapping exact mp -> csr_leads cs -> dst < 2 + nw -> src < 2 + nw -> dst <> src ->
  ends (mapped_pl_matvec exact lg mp pl dst src) st s tt st' s' ->
  (forall d w q, component pl src d w -> In q (is_points lg (pv_space w)) -> x d q = s (at_point w q)) ->
  (forall i v p, component pl dst i v -> In p (is_points lg (pv_space v)) -> s' (at_point v p) = block_product exact lg cs x i p) /\
  (forall l, ~ of_vector lg pl dst l -> s' l = s l).
Proof.
  intros lg mp cs nw pl dst src st s st' s' x Hlg Hw Hu Hmp Hc Hd Hs Hne He Hx.
  destruct (C75_mapped_product exact Hlg Hw Hu Hd Hs Hne) as [_ H]. destruct (H _ _ _ _ _ He Hx) as [H1 H2]. split; [|exact H2].
  intros i v p Hv Hp. destruct (working_ready Hw) as [R _]. destruct (proj1 (component_iff Hw i v Hd) Hv) as [Hi ->]. rewrite (vec_space R Hd Hi) in Hp.
  destruct (@pts_colour _ lg Hlg pl _ _ R dst i p Hd Hi Hp) as [c [piece [Hp1 Hp2]]].
  rewrite (H1 i _ c piece p Hv Hp1 Hp2). apply mapped_product_exact; assumption.
Qed.

(** Otherwise contributions are lost: what the matrices before a CSR matrix in the same block row add to the rows of a
    piece mapped to a GPU has no effect on the result, in any arithmetic. *)
Theorem C75_gpu_csr_discards_earlier_matrices : forall (T : Type) (A : arith T) (lg : legion) (mp : mapping T) (cs cs' : list (setup_call T)) before before' m d i after st x c p,
  mats_of cs = before ++ (CSR m, d, i) :: after -> mats_of cs' = before' ++ (CSR m, d, i) :: after -> length before = length before' -> sols_of cs = sols_of cs' ->
  on_gpu mp st (length before) c = true ->
  mapped_product A lg mp cs st x i c p = mapped_product A lg mp cs' st x i c p.
Proof.
  intros T A lg mp cs cs' before before' m d i after st x c p E E' El Es Hg. unfold mapped_product. rewrite E, E'.
  assert (G : forall (b : list (matrix T * nat * nat)) k, combine (seq k (length (b ++ (CSR m, d, i) :: after))) (b ++ (CSR m, d, i) :: after) =
     combine (seq k (length b)) b ++ (k + length b, (CSR m, d, i)) :: combine (seq (S (k + length b)) (length after)) after).
  { induction b as [|a b IH]; intros k; cbn [app length seq combine]; [rewrite Nat.add_0_r; reflexivity|]. f_equal. rewrite IH, Nat.add_succ_r. reflexivity. }
  rewrite !G. rewrite !fold_left_app. cbn [fold_left]. rewrite !Nat.add_0_l, Nat.eqb_refl, <- El. unfold space_of. rewrite <- Es.
  f_equal. unfold mapped_value at 1 3. rewrite Hg. reflexivity.
Qed.

(** ** Solver runs *)
Section Refine.
Variable T : Type.
Notation store := (store loc T).
(** whatever [m] guarantees, [m'] guarantees *)
Definition refines {X} (m m' : M T X) (st : ist) (s : store) : Prop := forall (Q : X -> ist -> store -> Prop), wp m Q st s -> wp m' Q st s.
Lemma refines_refl X (m : M T X) st s : refines m m st s.
Proof. intros Q H. exact H. Qed.
Lemma wp_bind_inv X Y (m : M T X) (f : X -> M T Y) (Q : Y -> ist -> store -> Prop) st s :
  wp (bind m f) Q st s -> wp m (fun x st' s' => wp (f x) Q st' s') st s.
Proof.
  intros [y [lns [st2 [H1 [H2 H3]]]]]. unfold bind in H1. destruct (m st) as [[[x l1] st1]| | |] eqn:E1; try discriminate. cbn [obind] in H1.
  destruct (f x st1) as [[[y' l2] st2']| | |] eqn:E2; try discriminate. cbn [obind] in H1. injection H1 as -> <- ->.
  apply Forall_app in H2. destruct H2 as [G1 G2]. exists x, l1, st1. split; [exact E1|]. split; [exact G1|].
  exists y, l2, st2. split; [exact E2|]. split; [exact G2|]. rewrite effect_app in H3. exact H3.
Qed.
(** every value [m] can return satisfies [P] *)
Definition returns {X} (m : M T X) (P : X -> Prop) : Prop := forall st x lns st', m st = Ok (x, lns, st') -> P x.
Lemma returns_ret X (x : X) (P : X -> Prop) : P x -> returns (ret x) P.
Proof. intros H st y lns st' E. injection E as <- _ _. exact H. Qed.
Lemma returns_bind X Y (m : M T X) (f : X -> M T Y) (P : Y -> Prop) : (forall x, returns (f x) P) -> returns (bind m f) P.
Proof.
  intros H st y lns st' E. unfold bind in E. destruct (m st) as [[[x l1] st1]| | |] eqn:E1; try discriminate. cbn [obind] in E.
  destruct (f x st1) as [[[y' l2] st2']| | |] eqn:E2; try discriminate. cbn [obind] in E. injection E as <- _ _. apply (H x _ _ _ _ E2).
Qed.
Lemma returns_after X Y (m : M T X) (f : X -> M T Y) (P : X -> Prop) (P' : Y -> Prop) : returns m P -> (forall x, P x -> returns (f x) P') -> returns (bind m f) P'.
Proof.
  intros Hm H st y lns st' E. unfold bind in E. destruct (m st) as [[[x l1] st1]| | |] eqn:E1; try discriminate. cbn [obind] in E.
  destruct (f x st1) as [[[y' l2] st2']| | |] eqn:E2; try discriminate. cbn [obind] in E. injection E as <- _ _. apply (H x (Hm _ _ _ _ E1) _ _ _ _ E2).
Qed.
Lemma refines_bind X Y (m m' : M T X) (f f' : X -> M T Y) (P : X -> Prop) st s : returns m P ->
  refines m m' st s -> (forall x st1 s1, P x -> refines (f x) (f' x) st1 s1) -> refines (bind m f) (bind m' f') st s.
Proof.
  intros Hr Hm Hf Q H. apply wp_bind_inv in H. apply wp_bind. apply Hm. destruct H as [x [lns [st1 [E [G W]]]]].
  exists x, lns, st1. split; [exact E|]. split; [exact G|]. apply (Hf x st1 _ (Hr _ _ _ _ E) _ W).
Qed.
Lemma refines_seq X Y (m m' : M T X) (f f' : X -> M T Y) st s : (forall st s, refines m m' st s) -> (forall x st1 s1, refines (f x) (f' x) st1 s1) -> refines (bind m f) (bind m' f') st s.
Proof. intros H1 H2. apply refines_bind with (P := fun _ => True); [intros ? ? ? ? _; exact I|apply H1|intros x st1 s1 _; apply H2]. Qed.
Lemma refines_mfold X Y (l : list X) (f f' : Y -> X -> M T Y) : (forall y x st s, In x l -> refines (f y x) (f' y x) st s) -> forall y st s, refines (mfold l y f) (mfold l y f') st s.
Proof.
  induction l as [|x l IH]; intros H y st s; [apply refines_refl|]. cbn [mfold]. apply refines_seq; [intros; apply H; left; reflexivity|].
  intros y' st1 s1. apply IH. intros y2 x2 st2 s2 Hx. apply H. right. exact Hx.
Qed.

Variable A : arith T.
Variable lg : legion.
Variable red : nat -> list T -> T.
Variable product : planner T -> nat -> nat -> M T unit.
Variable cs : list (setup_call T).
Hypothesis Hlg : legion_ok lg.
Hypothesis Hn : 0 < length (sols_of cs).
(** [product] does what the CPU product does *)
Hypothesis Hproduct : forall nw pl vi vj st s, working lg cs nw pl -> vi < 2 + nw -> vj < 2 + nw -> vi <> vj -> refines (pl_matvec A lg pl vi vj) (product pl vi vj) st s.

Ltac rng := unfold SOL, RHS, CG_P, CG_Q, CG_R, BI_P, BI_R, BI_RT, BI_U, BI_V, krylov_basis in *; cbn [length]; lia.
Ltac step Hw := apply refines_seq; [intros ? ?; first [apply refines_refl|eapply Hproduct; [exact Hw|rng|rng|rng]]|intros ? ? ?].
Lemma cg_step_refines c st s : working lg cs 3 (cg_pl c) -> refines (cg_step A lg red c) (cg_step_with A lg red product c) st s.
Proof. intros Hw. unfold cg_step, cg_step_with. repeat step Hw. apply refines_refl. Qed.
Lemma cg_step_planner c : returns (cg_step A lg red c) (fun c' => cg_pl c' = cg_pl c).
Proof. unfold cg_step. repeat (apply returns_bind; intros ?). apply returns_ret. reflexivity. Qed.
Lemma cg_steps_refines c k st s : working lg cs 3 (cg_pl c) ->
  returns (cg_steps A lg red k c) (fun c' => cg_pl c' = cg_pl c) /\ refines (cg_steps A lg red k c) (cg_steps_with A lg red product k c) st s.
Proof.
  intros Hw. induction k as [|k [IH1 IH2]]; [split; [apply returns_ret; reflexivity|apply refines_refl]|]. cbn [cg_steps cg_steps_with]. split.
  - eapply returns_after; [exact IH1|]. intros c' Ec. rewrite <- Ec. apply cg_step_planner.
  - eapply refines_bind; [exact IH1|exact IH2|]. intros c' st1 s1 Ec. apply cg_step_refines. rewrite Ec. exact Hw.
Qed.
Lemma bicg_step_refines c st s : working lg cs 5 (bi_pl c) -> refines (bicg_step A lg red c) (bicg_step_with A lg red product c) st s.
Proof. intros Hw. unfold bicg_step, bicg_step_with. repeat step Hw. apply refines_refl. Qed.
Lemma bicg_step_planner c : returns (bicg_step A lg red c) (fun c' => bi_pl c' = bi_pl c).
Proof. unfold bicg_step. repeat (apply returns_bind; intros ?). apply returns_ret. reflexivity. Qed.
Lemma bicg_steps_refines c k st s : working lg cs 5 (bi_pl c) ->
  returns (bicg_steps A lg red k c) (fun c' => bi_pl c' = bi_pl c) /\ refines (bicg_steps A lg red k c) (bicg_steps_with A lg red product k c) st s.
Proof.
  intros Hw. induction k as [|k [IH1 IH2]]; [split; [apply returns_ret; reflexivity|apply refines_refl]|]. cbn [bicg_steps bicg_steps_with]. split.
  - eapply returns_after; [exact IH1|]. intros c' Ec. rewrite <- Ec. apply bicg_step_planner.
  - eapply refines_bind; [exact IH1|exact IH2|]. intros c' st1 s1 Ec. apply bicg_step_refines. rewrite Ec. exact Hw.
Qed.
Lemma gmres_step_refines c st s : working lg cs (gm_restart c + 1) (gm_pl c) -> refines (gmres_step A lg red c) (gmres_step_with A lg red product c) st s.
Proof.
  intros Hw. unfold gmres_step, gmres_step_with. apply refines_seq.
  { intros st1 s1. unfold gmres_start, gmres_start_with. repeat step Hw. apply refines_refl. }
  intros _ st1 s1. apply refines_seq.
  { intros st2 s2. apply refines_mfold. intros h j st3 s3 Hj. apply in_seq in Hj. unfold gmres_arnoldi, gmres_arnoldi_with.
    apply refines_seq; [intros ? ?; eapply Hproduct; [exact Hw|rng|rng|rng]|intros ? ? ?]. apply refines_refl. }
  intros h st2 s2. apply refines_refl.
Qed.
Lemma gmres_step_planner c : returns (gmres_step A lg red c) (fun c' => gm_pl c' = gm_pl c /\ gm_restart c' = gm_restart c).
Proof. unfold gmres_step. repeat (apply returns_bind; intros ?). apply returns_ret. split; reflexivity. Qed.
Lemma gmres_steps_refines c k st s : working lg cs (gm_restart c + 1) (gm_pl c) ->
  returns (gmres_steps A lg red k c) (fun c' => gm_pl c' = gm_pl c /\ gm_restart c' = gm_restart c) /\ refines (gmres_steps A lg red k c) (gmres_steps_with A lg red product k c) st s.
Proof.
  intros Hw. induction k as [|k [IH1 IH2]]; [split; [apply returns_ret; auto|apply refines_refl]|]. cbn [gmres_steps gmres_steps_with]. split.
  - eapply returns_after; [exact IH1|]. intros c' [Ec Er]. rewrite <- Ec, <- Er. apply gmres_step_planner.
  - eapply refines_bind; [exact IH1|exact IH2|]. intros c' st1 s1 [Ec Er]. apply gmres_step_refines. rewrite Ec, Er. exact Hw.
Qed.

Lemma wp_both X (m : M T X) (Q1 Q2 : X -> ist -> store -> Prop) st s : wp m Q1 st s -> wp m Q2 st s -> wp m (fun x st' s' => Q1 x st' s' /\ Q2 x st' s') st s.
Proof.
  intros [x [lns [st' [E [G H]]]]] [x2 [lns2 [st2 [E2 [_ H2]]]]]. rewrite E in E2. injection E2 as <- <- <-. exists x, lns, st'. auto.
Qed.
Lemma cg_run_refines pl0 k st s : set_up lg cs st pl0 -> refines (cg_run A lg red pl0 k) (cg_run_with A lg red product pl0 k) st s.
Proof.
  intros Hs Q H. assert (G := @cg_run_good T A lg red cs Hlg Hn st pl0 s 0 Hs). unfold cg_run in G, H. apply wp_bind_inv in G. apply wp_bind_inv in H.
  unfold cg_run_with. apply wp_bind. eapply wp_conseq; [apply (wp_both G H)|]. intros c st1 s1 [W1 W2]. cbn [cg_steps] in W1.
  destruct W1 as [x [lns [st2 [E [_ [Hw _]]]]]]. injection E as <- _ _. apply (proj2 (@cg_steps_refines c k st1 s1 Hw) _ W2).
Qed.
Lemma bicg_run_refines pl0 k st s : set_up lg cs st pl0 -> refines (bicg_run A lg red pl0 k) (bicg_run_with A lg red product pl0 k) st s.
Proof.
  intros Hs Q H. assert (G := @bicg_run_good T A lg red cs Hlg Hn st pl0 s 0 Hs). unfold bicg_run in G, H. apply wp_bind_inv in G. apply wp_bind_inv in H.
  unfold bicg_run_with. apply wp_bind. eapply wp_conseq; [apply (wp_both G H)|]. intros c st1 s1 [W1 W2]. cbn [bicg_steps] in W1.
  destruct W1 as [x [lns [st2 [E [_ [Hw _]]]]]]. injection E as <- _ _. apply (proj2 (@bicg_steps_refines c k st1 s1 Hw) _ W2).
Qed.
Lemma gmres_run_refines pl0 restart k st s : set_up lg cs st pl0 -> refines (gmres_run A lg red pl0 restart k) (gmres_run_with A lg red product pl0 restart k) st s.
Proof.
  intros Hs Q H. assert (G := @gmres_run_good T A lg red cs Hlg Hn st pl0 s restart 0 Hs). unfold gmres_run in G, H. apply wp_bind_inv in G. apply wp_bind_inv in H.
  unfold gmres_run_with. apply wp_bind. eapply wp_conseq; [apply (wp_both G H)|]. intros c st1 s1 [W1 W2]. cbn [gmres_steps] in W1.
  destruct W1 as [x [lns [st2 [E [_ [Hw Hr]]]]]]. injection E as <- _ _. rewrite <- Hr in Hw. apply (proj2 (@gmres_steps_refines c k st1 s1 Hw) _ W2).
Qed.
End Refine.

(** The CPU product is refined by the mapped one. *)
Lemma mapped_product_refines (lg : legion) (mp : mapping (option R)) (cs : list (setup_call (option R))) : legion_ok lg -> gpu_usable lg mp cs -> legal_mapping exact mp -> csr_leads cs ->
  forall nw pl vi vj st s, working lg cs nw pl -> vi < 2 + nw -> vj < 2 + nw -> vi <> vj -> refines (pl_matvec exact lg pl vi vj) (mapped_pl_matvec exact lg mp pl vi vj) st s.
Proof.
  intros Hlg Hu Hmp Hc nw pl vi vj st s Hw Hv Hv' Hne Q H. destruct (working_ready Hw) as [R _].
  assert (Hg := fun st j pm vi vj => @planner_gpu_ready _ lg mp cs nw pl Hw Hu st j pm vi vj).
  destruct (C75_mapped_product exact Hlg Hw Hu Hv Hv' Hne) as [Ha _].
  assert (HM : forall s2, mapped_updates lg pl (length (sols_of cs)) vi (fun i c p => mapped_fold exact lg mp pl st (fun i p => s (cell pl vj i p)) i c p (combine (seq 0 (length (pl_mats pl))) (pl_mats pl))) s s2 ->
     Q tt st s2).
  { intros s2 [U1 U2].
    assert (W : wp (pl_matvec exact lg pl vi vj) (fun _ st' s1 => st' = st /\ updates lg pl (length (sols_of cs)) vi (matvec_value exact lg pl (fun i p => s (cell pl vj i p))) s s1) st s).
    { apply (wp_matvec Hlg R); auto. }
    destruct (wp_both H W) as [[] [lns [st' [E [G [HQ [-> [V1 V2]]]]]]]]. replace s2 with (effect lns s); [exact HQ|].
    apply functional_extensionality. intros l. destruct (classic (in_vector lg pl (length (sols_of cs)) vi l)) as [Hl|Hl]; [|rewrite (U2 l Hl), (V2 l Hl); reflexivity].
    destruct Hl as [i [p [Hi [Hp ->]]]]. rewrite (V1 i p Hi Hp). destruct (@pts_colour _ lg Hlg pl _ _ R vi i p Hv Hi Hp) as [c Hcol].
    rewrite (U1 i c p Hi Hcol). rewrite (@mapped_fold_product _ exact lg mp cs nw pl Hw st _ (fun d q => s (cell pl vj d q))) by reflexivity.
    rewrite mapped_product_exact by assumption.
    (* the CPU value is the block product *)
    assert (Hci : component pl vi i (vec pl vi i)) by (apply (component_iff Hw); auto).
    destruct (C16_planner_matvec exact Hlg Hw Hv Hv' Hne) as [_ HB]. destruct (some_end lns s) as [s3 Hs3].
    assert (He : ends (pl_matvec exact lg pl vi vj) st s tt st s3) by (exists lns; auto).
    destruct (HB _ _ _ _ (fun d q => s (cell pl vj d q)) He) as [HB1 _].
    { intros d w q Hcw Hq. destruct (proj1 (component_iff Hw d w Hv') Hcw) as [_ ->]. reflexivity. }
    rewrite <- (HB1 i (vec pl vi i) p Hci); [|rewrite (component_points Hw Hv Hci); exact Hp].
    rewrite (launches_end_effect G Hs3). symmetry. apply (V1 i p Hi Hp). }
  apply (wp_mapped_matvec exact Hlg R Hg); auto.
Qed.

(** Two programs, run from the same state, are both accepted and can end in the same results, handle allocator and stores. *)
Definition same_results {T X} (m m' : M T X) (st : ist) (s : store loc T) : Prop :=
  accepted m st /\ accepted m' st /\ forall x st' s', ends m st s x st' s' <-> ends m' st s x st' s'.
Lemma refines_same T X (m m' : M T X) Q st s : wp m Q st s -> refines m m' st s -> same_results m m' st s.
Proof.
  intros W Hr. destruct W as [x [lns [st1 [E [G HQ]]]]].
  assert (W' : wp m' (fun y st' s' => y = x /\ st' = st1 /\ s' = effect lns s) st s) by (apply Hr; exists x, lns, st1; auto).
  destruct W' as [y [lns' [st2 [E' [G' [-> [-> Es]]]]]]]. split; [eexists; exact E|]. split; [eexists; exact E'|].
  intros x0 st0 s0. split; intros [l0 [E0 H0]]; rewrite ?E, ?E' in E0; injection E0 as <- <- <-.
  - exists lns'. split; [exact E'|]. destruct (some_end lns' s) as [s3 H3].
    destruct H3 as [tr [Htr Hs3]]. exists tr. split; [exact Htr|]. intros l. rewrite (launches_end_effect G H0).
    rewrite (@executions_equal_effect _ lns' tr G' Htr s l). rewrite Es. reflexivity.
  - exists lns. split; [exact E|]. destruct (some_end lns s) as [s3 H3].
    destruct H3 as [tr [Htr Hs3]]. exists tr. split; [exact Htr|]. intros l. rewrite (launches_end_effect G' H0).
    rewrite (@executions_equal_effect _ lns tr G Htr s l). rewrite Es. reflexivity.
Qed.

(** the solver texts of GpuPlanner.v, with the CPU product, are those of Solvers.v *)
Theorem C75_same_solver_text : forall (T : Type) (A : arith T) (lg : legion) red pl0 restart k,
  cg_run_with A lg red (pl_matvec A lg) pl0 k = cg_run A lg red pl0 k /\ bicg_run_with A lg red (pl_matvec A lg) pl0 k = bicg_run A lg red pl0 k /\
  gmres_run_with A lg red (pl_matvec A lg) pl0 restart k = gmres_run A lg red pl0 restart k.
Proof.
  intros. split; [reflexivity|]. split; [reflexivity|]. unfold gmres_run_with, gmres_run. f_equal. apply functional_extensionality. intros c.
  induction k as [|k IH]; [reflexivity|]. cbn [gmres_steps gmres_steps_with]. rewrite IH. reflexivity.
Qed.

(** ** C75, the solvers: with any legal mapping, a run on CPUs and GPUs ends exactly as the run on CPUs does. *)
Section SolverTheorems.
Variables (lg : legion) (mp : mapping (option R)) (red : nat -> list (option R) -> option R) (cs : list (setup_call (option R))) (st : ist) (pl0 : planner (option R)) (s : store loc (option R)).
Hypotheses (Hlg : legion_ok lg) (Hs : set_up lg cs st pl0) (Hn : 0 < length (sols_of cs)).
Hypotheses (Hu : gpu_usable lg mp cs) (Hmp : legal_mapping exact mp) (Hc : csr_leads cs).
Theorem C75_cg_run : forall k, same_results (cg_run exact lg red pl0 k) (cg_run_with exact lg red (mapped_pl_matvec exact lg mp) pl0 k) st s.
Proof.
  intros k. eapply refines_same; [apply (@cg_run_good _ exact lg red cs); eassumption|]. apply (@cg_run_refines _ exact lg red (mapped_pl_matvec exact lg mp) cs); auto.
  apply mapped_product_refines; assumption.
Qed.
Theorem C75_bicgstab_run : forall k, same_results (bicg_run exact lg red pl0 k) (bicg_run_with exact lg red (mapped_pl_matvec exact lg mp) pl0 k) st s.
Proof.
  intros k. eapply refines_same; [apply (@bicg_run_good _ exact lg red cs); eassumption|]. apply (@bicg_run_refines _ exact lg red (mapped_pl_matvec exact lg mp) cs); auto.
  apply mapped_product_refines; assumption.
Qed.
Theorem C75_gmres_run : forall restart k, same_results (gmres_run exact lg red pl0 restart k) (gmres_run_with exact lg red (mapped_pl_matvec exact lg mp) pl0 restart k) st s.
Proof.
  intros restart k. eapply refines_same; [apply (@gmres_run_good _ exact lg red cs); eassumption|]. apply (@gmres_run_refines _ exact lg red (mapped_pl_matvec exact lg mp) cs); auto.
  apply mapped_product_refines; assumption.
Qed.
End SolverTheorems.
