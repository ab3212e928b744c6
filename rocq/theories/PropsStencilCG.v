(** PropsStencilCG: properties C61 and C62.  CG, run through the planner on stencil matrices, solves the convolution
    equation. *)
From Coq Require Import Reals Lra Classical_Prop.
From Verif Require Import Base Index IndexSpec IndexFacts Outcome Sched Async Arith Launch Vector PartitionSpec VectorFacts LaunchFacts
  Matrix MatrixSpec MatrixFacts MatvecFacts ExactSum Builder BuilderFacts Exec LinAlg CGSpec CGMath Planner PlannerFacts PlannerSetup Solvers
  PropsVector PropsMatrix PropsPlanner PropsSolver SolverFacts PropsCG PropsCGConv
  StencilSpec StencilSize StencilSizeFacts StencilFill StencilFillFacts StencilLaunch StencilTasks StencilCreate ExampleSystems PropsLaplacian PropsStencil PropsConvolution StencilPositive.
Set Implicit Arguments.

(** ** The stored matrix is the convolution operator *)
Lemma Rsum_nth {X} (f : nat -> R) (g : X -> R) cs : forall a, (forall k t, nth_error cs k = Some t -> f (a + k) = g t) -> Rsum f (seq a (length cs)) = Rsum g cs.
Proof.
  induction cs as [|t cs IH]; intros a H; cbn [length seq]; rewrite ?Rsum_nil, ?Rsum_cons; [reflexivity|].
  f_equal; [rewrite <- (H 0 t eq_refl), Nat.add_0_r; reflexivity|]. apply IH. intros k t' Hk. replace (S a + k) with (a + S k) by lia. apply H. exact Hk.
Qed.
Section Op.
Variable ltT : option R -> option R -> bool.
Variable o : IndexOrder.
Variable b : rect.
Variable offs : list (point * R).
Hypothesis Hlo : lo b <> [].
Hypothesis Hn : nonempty_box b.
Hypothesis Hd : offsets_dim b offs.
Variable rows : nat.
Variable linear : bool.
Variable m : matrix (option R).
Hypothesis Hm : stencil_matrix exact ltT o b (real_offsets offs) rows linear m.

Lemma real_offsets_dim : offsets_dim b (real_offsets offs).
Proof. unfold offsets_dim, real_offsets in *. rewrite Forall_map. exact Hd. Qed.
Lemma sorted_real sorted : std_sort ltT o (real_offsets offs) sorted -> exists sr, sorted = real_offsets sr /\ Permutation offs sr.
Proof.
  intros [Hs _]. unfold real_offsets in *. apply Permutation_sym, Permutation_map_inv in Hs. destruct Hs as [l [-> Hl]]. exists l. split; [reflexivity|exact Hl].
Qed.
Lemma stencil_entry p q : in_box b p -> in_box b q ->
  Rsum (fun kp => if in_row m (stored linear o b p) kp && (if point_eq_dec (PropsMatrix.column m kp) (stored linear o b q) then true else false) then real_value m kp else 0%R) (positions m)
  = coefficient offs (padd q (popp p)).
Proof.
  intros Hp Hq. assert (Hwf := nonempty_wf _ Hn).
  destruct (stencil_matrix_facts Hlo Hn real_offsets_dim Hm) as (sorted & Hs & Hpos & _ & Hk). destruct (sorted_real Hs) as (sr & -> & Hpm).
  rewrite Hpos. unfold kernel_points. rewrite Rsum_map, Nat2Z.id.
  rewrite (@Rsum_nth (point * point * option R) _ (fun t => let '(r, c, e) := t in if (if point_eq_dec r p then true else false) && (if point_eq_dec c q then true else false) then match e with Some x => x | None => 0%R end else 0%R) (stencil_contents o b (real_offsets sr)) 0).
  - unfold stencil_contents. rewrite Rsum_flat_map.
    rewrite (Rsum_ext _ (fun r => if point_eq_dec r p then coefficient offs (padd q (popp p)) else 0%R)).
    + rewrite (@Rsum_pick (fun _ => coefficient offs (padd q (popp p))) p) by apply NoDup_box_points.
      assert (M : mem p (box_points o b) = true) by (apply mem_spec, in_box_points; assumption). rewrite M. reflexivity.
    + intros r Hr. apply (in_box_points o b _ Hwf) in Hr. unfold stencil_row. rewrite Rsum_map, Rsum_filter. unfold real_offsets. rewrite Rsum_map. cbn [fst snd].
      destruct (point_eq_dec r p) as [->|N]; cbn [andb].
      * unfold coefficient. rewrite (Rsum_perm _ Hpm). apply Rsum_ext. intros [v e] Hin. cbn [fst snd].
        assert (Hv : length v = length (lo b)).
        { unfold offsets_dim in Hd. rewrite Forall_forall in Hd. apply (Hd (v, e)). eapply Permutation_in; [apply Permutation_sym; exact Hpm|exact Hin]. }
        assert (Lp : length p = length v) by (destruct Hp as [Hp' _]; congruence). assert (Lq : length q = length v) by (destruct Hq as [Hq' _]; congruence).
        assert (S := padd_shift p q v Lp Lq).
        destruct (point_eq_dec (padd p v) q) as [E1|E1]; destruct (point_eq_dec v (padd q (popp p))) as [E2|E2].
        -- rewrite E1. apply contains_iff in Hq. rewrite Hq. reflexivity.
        -- exfalso. apply E2, S, E1.
        -- exfalso. apply E1, S, E2.
        -- destruct (contains b (padd p v)); reflexivity.
      * transitivity (Rsum (fun _ : point * R => 0%R) sr); [|apply Rsum_zero]. apply Rsum_ext. intros oe _. destruct (contains b (padd r (fst oe))); reflexivity.
  - intros k [[r c] e] Ek. rewrite Nat.add_0_l. destruct (Hk k r c e Ek) as [E1 [E2 E3]]. unfold real_value. rewrite E1, E2, E3 by exact Hp.
    assert (Hc : in_box b c) by (eapply contents_in; [exact Hn|exact Ek]).
    destruct (point_eq_dec r p); cbn [andb]; [|reflexivity]. destruct (point_eq_dec c q) as [->|N]; destruct (point_eq_dec (stored linear o b _) (stored linear o b q)) as [E|E]; try reflexivity; try congruence.
    exfalso. apply N. eapply stored_inj; eassumption.
Qed.
Lemma stencil_values kp : In kp (positions m) -> value m kp <> None.
Proof.
  destruct (stencil_matrix_facts Hlo Hn real_offsets_dim Hm) as (sorted & Hs & Hpos & _ & Hk). destruct (sorted_real Hs) as (sr & -> & Hpm).
  intros H. rewrite Hpos in H. unfold kernel_points in H. rewrite Nat2Z.id in H. apply in_map_iff in H. destruct H as [k [<- H]]. apply in_seq in H.
  destruct (nth_error (stencil_contents o b (real_offsets sr)) k) as [[[r c] e]|] eqn:E; [|apply nth_error_None in E; lia].
  destruct (Hk k r c e E) as [_ [-> _]]. apply nth_error_In in E. unfold stencil_contents in E. apply in_flat_map in E. destruct E as [p [_ E]].
  unfold stencil_row in E. apply in_map_iff in E. destruct E as [oe [E Hin]]. injection E as <- <- <-. apply filter_In in Hin. destruct Hin as [Hin _].
  unfold real_offsets in Hin. apply in_map_iff in Hin. destruct Hin as [oe' [<- _]]. discriminate.
Qed.
Lemma stencil_matrix_ok lg : grid_space linear o b (is_points lg rows) -> matrix_ok lg m /\ match m with COO _ => True | CSR c => rows = cs_rows c end.
Proof.
  intros G. destruct (stencil_matrix_facts Hlo Hn real_offsets_dim Hm) as (sorted & Hs & Hpos & Hrows & Hk). destruct (sorted_real Hs) as (sr & -> & Hpm).
  destruct m as [c|c]; [split; exact I|]. split; [|symmetry; exact Hrows]. cbn [matrix_ok]. intros kp r1 r2 H1 H2 H3 H4 H5. cbn [positions] in Hpos.
  rewrite Hpos in H1. unfold kernel_points in H1. rewrite Nat2Z.id in H1. apply in_map_iff in H1. destruct H1 as [k [<- H]]. apply in_seq in H.
  destruct (nth_error (stencil_contents o b (real_offsets sr)) k) as [[[r c0] e]|] eqn:E; [|apply nth_error_None in E; lia].
  rewrite Hrows in H2, H3. apply G in H2. apply G in H3. destruct H2 as [p1 [P1 ->]]. destruct H3 as [p2 [P2 ->]].
  destruct (Hk k r c0 e E) as [_ [_ R]]. cbn [in_row] in R. rewrite R in H4, H5 by assumption.
  destruct (point_eq_dec r p1); [|discriminate]. destruct (point_eq_dec r p2); [|discriminate]. congruence.
Qed.
End Op.

(** ** Several independent copies of one stencil system, as BenchmarkStencil.cpp sets up (two copies): every component
    uses the same matrix object, on the diagonal of the block system *)
Definition copies {T} (k : nat) (m : matrix T) : list (matrix T * nat * nat) := map (fun i => (m, i, i)) (seq 0 k).

Section Copies.
Variable ltT : option R -> option R -> bool.
Variable o : IndexOrder.
Variable b : rect.
Variable offs : list (point * R).
Hypothesis Hlo : lo b <> [].
Hypothesis Hn : nonempty_box b.
Hypothesis Hd : offsets_dim b offs.
Variable sp : nat.
Variable linear : bool.
Variable m : matrix (option R).
Hypothesis Hm : stencil_matrix exact ltT o b (real_offsets offs) sp linear m.
Variable lg : legion.
Hypothesis Hlg : legion_ok lg.
Hypothesis Hg : grid_space linear o b (is_points lg sp).
Variable k : nat.
Variable cs : list (setup_call (option R)).
Hypothesis Hk : length (sols_of cs) = k.
Hypothesis Hsp : forall v, In v (sols_of cs) -> pv_space v = sp.
Hypothesis Hmat : mats_of cs = copies k m.

Lemma space_sp i : i < k -> space_of cs i = sp.
Proof. intros Hi. unfold space_of. apply Hsp. apply nth_In. rewrite Hk. exact Hi. Qed.
Lemma grid_perm : Permutation (is_points lg sp) (map (stored linear o b) (box_points o b)).
Proof.
  assert (Hwf := nonempty_wf _ Hn). apply NoDup_Permutation; [apply Hlg| |].
  - assert (Hnd := NoDup_box_points o b). assert (Hi : forall p, In p (box_points o b) -> in_box b p) by (intros p; apply in_box_points; exact Hwf).
    revert Hnd Hi. generalize (box_points o b) as l. induction l as [|p l IH]; intros Hnd Hi; [constructor|]. inversion Hnd as [|? ? Hp Hnd']; subst. cbn [map]. constructor.
    + intros C. apply in_map_iff in C. destruct C as [q [E Hq]]. apply Hp. replace p with q; [exact Hq|].
      refine (stored_inj o linear _ _ E); [apply Hi; right; exact Hq|apply Hi; left; reflexivity].
    + apply IH; [exact Hnd'|]. intros q Hq. apply Hi. right. exact Hq.
  - intros q. rewrite (Hg q), in_map_iff. split; intros [p [H1 H2]]; exists p; [split; [symmetry; exact H2|apply in_box_points; assumption]|split; [apply (in_box_points o b _ Hwf); exact H2|symmetry; exact H1]].
Qed.
Lemma unknowns_perm : Permutation (unknowns lg cs) (flat_map (fun i => map (fun p => (i, stored linear o b p)) (box_points o b)) (seq 0 k)).
Proof.
  unfold unknowns. rewrite Hk. assert (H : forall i, In i (seq 0 k) -> i < k) by (intros i Hi; apply in_seq in Hi; lia). revert H. generalize (seq 0 k) as l.
  induction l as [|i l IH]; intros H; [reflexivity|]. cbn [flat_map]. apply Permutation_app.
  - rewrite space_sp by (apply H; left; reflexivity). rewrite <- (map_map (stored linear o b) (pair i)). apply Permutation_map, grid_perm.
  - apply IH. intros j Hj. apply H. right. exact Hj.
Qed.
Lemma operator_copies i j p q : i < k -> in_box b p -> in_box b q ->
  operator cs (i, stored linear o b p) (j, stored linear o b q) = if i =? j then coefficient offs (padd q (popp p)) else 0%R.
Proof.
  intros Hi Hp Hq. unfold operator. rewrite Hmat. unfold copies. rewrite Rsum_map. cbn [fst snd].
  rewrite (Rsum_seq_pick _ Hi).
  - rewrite Nat.eqb_refl. cbn [andb]. destruct (i =? j); [|reflexivity]. exact (stencil_entry Hlo Hn Hd Hm Hp Hq).
  - intros l Hl Hne. destruct (Nat.eqb_spec l i); [congruence|reflexivity].
Qed.
Definition component_of (x : unknown -> R) (i : nat) (p : point) : R := x (i, stored linear o b p).
Lemma apply_copies x i p : i < k -> in_box b p ->
  apply_op (unknowns lg cs) (operator cs) x (i, stored linear o b p) = convolve b offs (component_of x i) p.
Proof.
  intros Hi Hp. assert (Hwf := nonempty_wf _ Hn). unfold apply_op. rewrite (Rsum_perm _ unknowns_perm), Rsum_flat_map. rewrite (Rsum_seq_pick _ Hi).
  - rewrite (convolve_operator o _ Hwf Hd Hp). unfold app_op. rewrite Rsum_map. apply Rsum_ext. intros q Hq. apply (in_box_points o b _ Hwf) in Hq.
    rewrite operator_copies, Nat.eqb_refl by assumption. reflexivity.
  - intros j Hj Hne. rewrite Rsum_map. transitivity (Rsum (fun _ : point => 0%R) (box_points o b)); [|apply Rsum_zero]. apply Rsum_ext. intros q Hq. apply (in_box_points o b _ Hwf) in Hq.
    rewrite operator_copies by assumption. destruct (Nat.eqb_spec i j); [congruence|ring].
Qed.
Lemma in_unknowns_copies u : In u (unknowns lg cs) -> exists i p, i < k /\ in_box b p /\ u = (i, stored linear o b p).
Proof.
  intros H. apply (Permutation_in _ unknowns_perm) in H. apply in_flat_map in H. destruct H as [i [Hi H]]. apply in_seq in Hi. apply in_map_iff in H. destruct H as [p [<- Hp]].
  exists i, p. split; [lia|]. split; [apply (in_box_points o b _ (nonempty_wf _ Hn)); exact Hp|reflexivity].
Qed.
Lemma copies_in_unknowns i p : i < k -> in_box b p -> In (i, stored linear o b p) (unknowns lg cs).
Proof.
  intros Hi Hp. apply (Permutation_in _ (Permutation_sym unknowns_perm)). apply in_flat_map. exists i. split; [apply in_seq; lia|]. apply in_map_iff. exists p. split; [reflexivity|].
  apply in_box_points; [apply nonempty_wf; exact Hn|exact Hp].
Qed.
Lemma copies_symmetric : symmetric_stencil b offs -> symmetric (unknowns lg cs) (operator cs).
Proof.
  intros Hs u v Hu Hv. destruct (in_unknowns_copies u Hu) as (i & p & Hi & Hp & ->). destruct (in_unknowns_copies v Hv) as (j & q & Hj & Hq & ->).
  rewrite !operator_copies by assumption. rewrite (Nat.eqb_sym j i). destruct (i =? j); [|reflexivity].
  assert (Lpq : length p = length q) by (destruct Hp as [Hp _]; destruct Hq as [Hq _]; congruence).
  rewrite Hs, popp_diff; [reflexivity|exact Lpq|]. rewrite diff_length by exact Lpq. apply Hq.
Qed.
Lemma copies_positive : positive_stencil o b offs -> positive_definite (unknowns lg cs) (operator cs).
Proof.
  intros Hp x Hx. assert (Hwf := nonempty_wf _ Hn). unfold ip. rewrite (Rsum_perm _ unknowns_perm), Rsum_flat_map.
  set (q := fun i => Rsum (fun p => component_of x i p * convolve b offs (component_of x i) p)%R (box_points o b)).
  rewrite (Rsum_ext _ q).
  2:{ intros i Hi. apply in_seq in Hi. rewrite Rsum_map. apply Rsum_ext. intros p Hp'. apply (in_box_points o b _ Hwf) in Hp'.
      assert (E := @apply_copies x i p ltac:(lia) Hp'). unfold apply_op in E. unfold app_op. rewrite E. reflexivity. }
  assert (Q0 : forall i, (0 <= q i)%R).
  { intros i. destruct (classic (exists p, in_box b p /\ component_of x i p <> 0%R)) as [H|H].
    - apply Rlt_le. exact (Hp (component_of x i) H).
    - unfold q. rewrite (Rsum_ext _ (fun _ => 0%R)); [rewrite Rsum_zero; lra|]. intros p Hp'. apply (in_box_points o b _ Hwf) in Hp'.
      destruct (Req_EM_T (component_of x i p) 0) as [->|N]; [ring|]. exfalso. apply H. exists p. auto. }
  destruct (classic (exists i p, i < k /\ in_box b p /\ component_of x i p <> 0%R)) as [(i & p & Hi & Hp' & N)|H].
  - assert (P : (0 < q i)%R) by (apply Hp; exists p; auto).
    destruct (in_split i (seq 0 k) (proj2 (in_seq k 0 i) ltac:(lia))) as [l1 [l2 ->]]. rewrite Rsum_app, Rsum_cons.
    assert (0 <= Rsum q l1)%R by (apply Rsum_nonneg; intros; apply Q0). assert (0 <= Rsum q l2)%R by (apply Rsum_nonneg; intros; apply Q0). lra.
  - exfalso. apply Hx. intros u Hu. destruct (in_unknowns_copies u Hu) as (i & p & Hi & Hp' & ->).
    destruct (Req_EM_T (component_of x i p) 0) as [E|N]; [exact E|]. exfalso. apply H. exists i, p. auto.
Qed.
Lemma copies_count : length (unknowns lg cs) = k * length (box_points o b).
Proof.
  rewrite (Permutation_length unknowns_perm). clear. generalize 0 as a. induction k as [|n IH]; intros a; [reflexivity|]. cbn [seq flat_map]. rewrite app_length, map_length, IH. lia.
Qed.
End Copies.

(** ** C61.  CG solves the convolution equation of a symmetric positive stencil, in at most as many steps as there are unknowns. *)
Theorem C61_cg_solves_stencil : forall ltT (o : IndexOrder) (b : rect) (offs : list (point * R)) (lg : legion) red (linear : bool)
    (m : matrix (option R)) (sp k : nat) (cs : list (setup_call (option R))) st pl0 s (f : nat -> point -> R),
  lo b <> [] -> nonempty_box b -> offsets_dim b offs -> symmetric_stencil b offs -> positive_stencil o b offs ->
  legion_ok lg -> legal_reduction exact red -> set_up lg cs st pl0 ->
  grid_space linear o b (is_points lg sp) -> stencil_matrix exact ltT o b (real_offsets offs) sp linear m ->
  1 <= k -> length (sols_of cs) = k -> (forall v, In v (sols_of cs ++ rhss_of cs) -> pv_space v = sp) -> mats_of cs = copies k m ->
  (forall i v, nth_error (sols_of cs) i = Some v -> holds_grid linear o b s v (fun _ => 0%R)) ->
  (forall i v, nth_error (rhss_of cs) i = Some v -> holds_grid linear o b s v (f i)) ->
  exists (n : nat) (x : nat -> point -> R), (Z.of_nat n <= Z.of_nat k * volume b)%Z /\ accepted (cg_run exact lg red pl0 n) st /\
    (forall c st' s', ends (cg_run exact lg red pl0 n) st s c st' s' ->
       forall i v, nth_error (sols_of cs) i = Some v -> holds_grid linear o b s' v (x i)) /\
    (forall i p, i < k -> in_box b p -> convolve b offs (x i) p = f i p) /\
    (forall y, (forall i p, i < k -> in_box b p -> convolve b offs (y i) p = f i p) -> forall i p, i < k -> in_box b p -> y i p = x i p).
Proof.
  intros ltT o b offs lg red linear m sp k cs st pl0 s f Hlo Hn Hd Hsy Hpo Hlg Hred Hs Hg Hm Hk1 Hk Hsp Hmat Hx Hb.
  assert (Hwf := nonempty_wf _ Hn).
  assert (Hsp1 : forall v, In v (sols_of cs) -> pv_space v = sp) by (intros v Hv; apply Hsp, in_app_iff; left; exact Hv).
  assert (Hsp2 : forall v, In v (rhss_of cs) -> pv_space v = sp) by (intros v Hv; apply Hsp, in_app_iff; right; exact Hv).
  (* a function on the stored points *)
  set (dec := fun q : point => match find (fun p => if point_eq_dec (stored linear o b p) q then true else false) (box_points o b) with Some p => p | None => [] end).
  assert (Dec : forall p, in_box b p -> dec (stored linear o b p) = p).
  { intros p Hp. unfold dec. destruct (find _ (box_points o b)) as [p'|] eqn:F.
    - apply find_some in F. destruct F as [F1 F2]. apply (in_box_points o b _ Hwf) in F1. destruct (point_eq_dec _ _) as [E|]; [|discriminate]. eapply stored_inj; eassumption.
    - exfalso. apply (in_box_points o b _ Hwf) in Hp. apply (find_none _ _ F) in Hp. destruct (point_eq_dec _ _); [discriminate|congruence]. }
  set (bu := fun u : unknown => f (fst u) (dec (snd u))).
  destruct (@C38_cg_solves lg red cs st pl0 s bu Hlg Hred Hs) as [n [x [K1 [K2 [K3 [K4 K5]]]]]].
  - intros m' d r Hin. rewrite Hmat in Hin. unfold copies in Hin. apply in_map_iff in Hin. destruct Hin as [i [E _]]. injection E as <- <- <-. exact (stencil_values Hlo Hn Hd Hm).
  - lia.
  - intros i v q Hv Hq. rewrite (Hsp1 v (nth_error_In _ _ Hv)) in Hq. apply Hg in Hq. destruct Hq as [p [Hp ->]]. exact (Hx i v Hv p Hp).
  - intros i v q Hv Hq. rewrite (Hsp2 v (nth_error_In _ _ Hv)) in Hq. apply Hg in Hq. destruct Hq as [p [Hp ->]]. rewrite (Hb i v Hv p Hp). unfold bu. cbn [fst snd]. rewrite Dec by exact Hp. reflexivity.
  - eapply copies_symmetric; eassumption.
  - eapply copies_positive; eassumption.
  - exists n, (fun i p => x (i, stored linear o b p)).
    assert (Ap : forall y i p, i < k -> in_box b p -> apply_op (unknowns lg cs) (operator cs) y (i, stored linear o b p) = convolve b offs (fun p => y (i, stored linear o b p)) p).
    { intros y i p Hi Hp. exact (@apply_copies ltT o b offs Hlo Hn Hd sp linear m Hm lg Hlg Hg k cs Hk Hsp1 Hmat y i p Hi Hp). }
    assert (Iu : forall i p, i < k -> in_box b p -> In (i, stored linear o b p) (unknowns lg cs)).
    { intros i p Hi Hp. eapply copies_in_unknowns; eassumption. }
    split; [|split; [exact K2|split; [|split]]].
    + rewrite <- (box_points_length o b Hwf), <- Nat2Z.inj_mul. apply inj_le. assert (Cn : length (unknowns lg cs) = k * length (box_points o b)) by (eapply copies_count; eassumption). rewrite <- Cn. exact K1.
    + intros c st' s' He i v Hv p Hp. apply (K3 c st' s' He i v (stored linear o b p) Hv). rewrite (Hsp1 v (nth_error_In _ _ Hv)). apply Hg. exists p. auto.
    + intros i p Hi Hp. rewrite <- (Ap x i p Hi Hp), (K4 _ (Iu i p Hi Hp)). unfold bu. cbn [fst snd]. rewrite Dec by exact Hp. reflexivity.
    + intros y Hy i p Hi Hp.
      set (yu := fun u : unknown => y (fst u) (dec (snd u))).
      assert (Ey : forall j q, in_box b q -> yu (j, stored linear o b q) = y j q) by (intros j q Hq; unfold yu; cbn [fst snd]; rewrite Dec by exact Hq; reflexivity).
      rewrite <- (Ey i p Hp). apply K5; [|apply Iu; assumption].
      intros u Hu. assert (Iv : exists i p, i < k /\ in_box b p /\ u = (i, stored linear o b p)) by (eapply in_unknowns_copies; eassumption). destruct Iv as (j & q & Hj & Hq & ->).
      rewrite Ap by assumption. unfold bu. cbn [fst snd]. rewrite Dec by exact Hq. rewrite <- (Hy j q Hj Hq). unfold convolve. apply Rsum_ext. intros oe _. f_equal.
      unfold zero_outside. destruct (contains b (padd q (fst oe))) eqn:C; [|reflexivity]. apply Ey. apply contains_iff. exact C.
Qed.

(** ** C62.  The four model problems of BenchmarkStencil.cpp. *)
(** a diagonally dominant stencil is positive definite; with symmetry, C61 applies *)
Theorem C62_dominant_stencil_positive : forall (o : IndexOrder) (b : rect) (offs : list (point * R)),
  nonempty_box b -> offsets_dim b offs -> dominant_stencil b offs -> positive_stencil o b offs.
Proof. intros o b offs Hn. apply dominant_stencil_positive. apply nonempty_wf. exact Hn. Qed.

(** test/BenchmarkStencil.cpp:33-131: bounds and offsets of get_laplacian_matrix, by the value of -dim (entries as
    exact quotients instead of rounded doubles) *)
Definition benchmark_box (dim : nat) (nx ny nz : Z) : rect :=
  match dim with
  | 1 => mk_rect [0]%Z [nx - 1]%Z
  | 2 => mk_rect [0; 0]%Z [nx - 1; ny - 1]%Z
  | _ => mk_rect [0; 0; 0]%Z [nx - 1; ny - 1; nz - 1]%Z
  end.
Definition benchmark_numerators (dim : nat) : list (point * Z) :=
  match dim with
  | 1 => [([0], 2); ([-1], -1); ([1], -1)]%Z
  | 2 => [([0; 0], 4); ([-1; 0], -1); ([1; 0], -1); ([0; -1], -1); ([0; 1], -1)]%Z
  | 3 => [([0; 0; 0], 6); ([-1; 0; 0], -1); ([1; 0; 0], -1); ([0; -1; 0], -1); ([0; 1; 0], -1); ([0; 0; -1], -1); ([0; 0; 1], -1)]%Z
  | _ => [([0; 0; 0], 88);
      ([-1; 0; 0], -6); ([1; 0; 0], -6); ([0; -1; 0], -6); ([0; 1; 0], -6); ([0; 0; -1], -6); ([0; 0; 1], -6);
      ([-1; -1; 0], -3); ([-1; 1; 0], -3); ([1; -1; 0], -3); ([1; 1; 0], -3);
      ([-1; 0; -1], -3); ([-1; 0; 1], -3); ([1; 0; -1], -3); ([1; 0; 1], -3);
      ([0; -1; -1], -3); ([0; -1; 1], -3); ([0; 1; -1], -3); ([0; 1; 1], -3);
      ([-1; -1; -1], -2); ([-1; -1; 1], -2); ([-1; 1; -1], -2); ([-1; 1; 1], -2);
      ([1; -1; -1], -2); ([1; -1; 1], -2); ([1; 1; -1], -2); ([1; 1; 1], -2)]%Z
  end.
Definition benchmark_denominator (dim : nat) : Z := if dim <=? 3 then 1 else 26.
Definition benchmark_offsets (dim : nat) : list (point * R) :=
  map (fun oe => (fst oe, (IZR (snd oe) / IZR (benchmark_denominator dim))%R)) (benchmark_numerators dim).
(** test/BenchmarkStencil.cpp:201-207: the two solution vectors, the two right-hand sides and the matrix twice *)
Definition benchmark_calls {T} (sol sol1 rhs rhs1 : pvec) (m : matrix T) : list (setup_call T) :=
  [AddSol sol; AddSol sol1; AddRhs rhs; AddRhs rhs1; AddMatrix m 0 0; AddMatrix m 1 1].

Lemma benchmark_nonempty dim nx ny nz : (1 <= nx)%Z -> (1 <= ny)%Z -> (1 <= nz)%Z -> nonempty_box (benchmark_box dim nx ny nz) /\ lo (benchmark_box dim nx ny nz) <> [].
Proof.
  intros Hx Hy Hz. split; [split; [destruct dim as [|[|[|]]]; reflexivity|]|destruct dim as [|[|[|]]]; discriminate].
  destruct dim as [|[|[|d]]]; cbn [benchmark_box lo hi length]; intros i Hi; destruct i as [|[|[|i]]]; cbn [nth]; lia.
Qed.
Lemma benchmark_dim dim nx ny nz : offsets_dim (benchmark_box dim nx ny nz) (benchmark_offsets dim).
Proof. unfold offsets_dim, benchmark_offsets. rewrite Forall_map. destruct dim as [|[|[|[|d]]]]; cbn [benchmark_box benchmark_numerators]; repeat constructor. Qed.
Lemma benchmark_dominant dim nx ny nz : dominant_stencil (benchmark_box dim nx ny nz) (benchmark_offsets dim).
Proof.
  unfold dominant_stencil. rewrite centre_sum by apply benchmark_dim. unfold off_centre_weight, benchmark_offsets. rewrite !Rsum_map.
  destruct dim as [|[|[|[|d]]]]; cbn [benchmark_numerators]; rewrite !Rsum_cons, !Rsum_nil; cbn [fst snd is_origin forallb Z.eqb andb benchmark_denominator Nat.leb];
    repeat match goal with |- context [Rabs ?x] => rewrite (@Rabs_left x) by lra end; split; lra.
Qed.
(** the coefficient is read off the triple of signs; both signs carry the same *)
Lemma popp_involutive v : popp (popp v) = v.
Proof. unfold popp. rewrite map_map. rewrite <- (map_id v) at 2. apply map_ext. intros z. lia. Qed.
Lemma symmetric_by_permutation b offs : Permutation (map (fun oe => (popp (fst oe), snd oe)) offs) offs -> symmetric_stencil b offs.
Proof.
  intros H v _. unfold coefficient. rewrite <- (Rsum_perm _ H), Rsum_map. apply Rsum_ext. intros oe _. cbn [fst snd].
  destruct (point_eq_dec (popp (fst oe)) v) as [E|E]; destruct (point_eq_dec (fst oe) (popp v)) as [E'|E']; try reflexivity; exfalso.
  - apply E'. rewrite <- E, popp_involutive. reflexivity.
  - apply E. rewrite E', popp_involutive. reflexivity.
Qed.
Definition opposite_in (l : list (point * Z)) (oe : point * Z) : bool :=
  existsb (fun oe' => (if point_eq_dec (popp (fst oe)) (fst oe') then true else false) && (snd oe =? snd oe')%Z) l.
Lemma benchmark_opposites dim : forallb (opposite_in (benchmark_numerators dim)) (benchmark_numerators dim) = true.
Proof. destruct dim as [|[|[|[|d]]]]; vm_compute; reflexivity. Qed.
Lemma benchmark_nodup dim : NoDup (map (fun oe => (popp (fst oe), snd oe)) (benchmark_numerators dim)).
Proof.
  assert (H : NoDup (map fst (map (fun oe => (popp (fst oe), snd oe)) (benchmark_numerators dim)))); [|apply NoDup_map_inv in H; exact H].
  destruct dim as [|[|[|[|d]]]]; cbn [benchmark_numerators map fst snd popp Z.opp];
    repeat (constructor; [cbn [In]; intros H; repeat (destruct H as [H|H]; [discriminate H|]); exact H|]); constructor.
Qed.
Lemma benchmark_symmetric dim nx ny nz : symmetric_stencil (benchmark_box dim nx ny nz) (benchmark_offsets dim).
Proof.
  apply symmetric_by_permutation. unfold benchmark_offsets. rewrite map_map. cbn [fst snd].
  rewrite <- (map_map (fun oe => (popp (fst oe), snd oe)) (fun oe => (fst oe, (IZR (snd oe) / IZR (benchmark_denominator dim))%R))). apply Permutation_map.
  apply NoDup_Permutation_bis; [apply benchmark_nodup|rewrite map_length; lia|].
  intros oe H. apply in_map_iff in H. destruct H as [oe' [<- H]]. assert (F := benchmark_opposites dim). rewrite forallb_forall in F. apply F in H.
  apply existsb_exists in H. destruct H as [oe [H1 H2]]. apply andb_true_iff in H2. destruct H2 as [H2 H3]. destruct (point_eq_dec _ _) as [->|]; [|discriminate].
  apply Z.eqb_eq in H3. rewrite H3. destruct oe. exact H1.
Qed.
Lemma benchmark_set_up {T} lg (sol sol1 rhs rhs1 : pvec) (m : matrix T) st sp pt :
  (forall v, In v [sol; sol1; rhs; rhs1] -> constructed lg v /\ pv_space v = sp /\ pv_part v = pt /\ pv_region v < next_region st) ->
  NoDup (map storage [sol; sol1; rhs; rhs1]) -> matrix_ok lg m ->
  match m with COO _ => True | CSR c => sp = cs_rows c end ->
  exists pl0, set_up lg (benchmark_calls sol sol1 rhs rhs1 m) st pl0.
Proof.
  intros Hv Hnd Hm Hr. cbn [In] in Hv.
  assert (Hmat : forall m' d r, In (m', d, r) (mats_of (benchmark_calls sol sol1 rhs rhs1 m)) -> matrix_ok lg m').
  { cbn. intros m' d r [E|[E|[]]]; injection E as <- <- <-; exact Hm. }
  destruct (@C18_legal_calls_accepted T lg (benchmark_calls sol sol1 rhs rhs1 m)) as [pl0 [E _]].
  - intros v Hin. apply Hv. exact Hin.
  - exact Hmat.
  - intros before c after E. unfold benchmark_calls in E.
    destruct before as [|b1 [|b2 [|b3 [|b4 [|b5 [|b6 before]]]]]]; cbn [app] in E.
    + injection E as <- _. cbn. intros x Hx. discriminate.
    + injection E as <- <- _. cbn. intros x Hx. discriminate.
    + injection E as <- <- <- _. cbn. intros x Hx. injection Hx as <-. destruct (Hv sol) as (_ & -> & -> & _); [tauto|]. destruct (Hv rhs) as (_ & -> & -> & _); tauto.
    + injection E as <- <- <- <- _. cbn. intros x Hx. injection Hx as <-. destruct (Hv sol1) as (_ & -> & -> & _); [tauto|]. destruct (Hv rhs1) as (_ & -> & -> & _); tauto.
    + injection E as <- <- <- <- <- _. cbn [allowed sols_of rhss_of flat_map app length nth_error]. repeat split; try lia. destruct m; [exact I|]. intros x Hx. injection Hx as <-.
      rewrite <- Hr. apply Hv. tauto.
    + injection E as <- <- <- <- <- <- _. cbn [allowed sols_of rhss_of flat_map app length nth_error]. repeat split; try lia. destruct m; [exact I|]. intros x Hx. injection Hx as <-.
      rewrite <- Hr. apply Hv. tauto.
    + injection E as _ _ _ _ _ _ E. destruct before; discriminate.
  - exists pl0. split; [|exact E]. constructor.
    + cbn. intros v Hin. split; apply Hv; exact Hin.
    + exact Hnd.
    + reflexivity.
    + exact Hmat.
Qed.
Lemma linear_grid o b pts : nonempty_box b -> (forall q, In q pts <-> exists k, (0 <= k < volume b)%Z /\ q = [k]) -> grid_space true o b pts.
Proof.
  intros Hn H q. rewrite H. cbn [stored]. split.
  - intros [k [Hk ->]]. destruct (linearize_surj o b k Hn Hk) as [p [Hp <-]]. exists p. auto.
  - intros [p [Hp ->]]. exists (linearize o b p). split; [apply linearize_range; exact Hp|reflexivity].
Qed.

(** The CG branch of BenchmarkStencil.cpp, in exact arithmetic: with a nonempty grid the planner accepts the calls and some
    number of steps, at most twice the number of grid points, leaves the solution of the discrete equation in both
    solution vectors, whatever the right-hand sides (the program fills them with ones), the number of pieces and the
    schedule. *)
Theorem C62_benchmark_cg : forall ltT lg red (dim : nat) (nx ny nz : Z) (sol sol1 rhs rhs1 : pvec) (sp pt : nat) (m : matrix (option R)) st s (f f1 : point -> R),
  let b := benchmark_box dim nx ny nz in
  1 <= dim <= 4 -> (1 <= nx)%Z -> (1 <= ny)%Z -> (1 <= nz)%Z ->
  legion_ok lg -> legal_reduction exact red ->
  (forall q, In q (is_points lg sp) <-> exists k, (0 <= k < volume b)%Z /\ q = [k]) ->
  stencil_matrix exact ltT ROW_MAJOR b (real_offsets (benchmark_offsets dim)) sp true m ->
  (forall v, In v [sol; sol1; rhs; rhs1] -> constructed lg v /\ pv_space v = sp /\ pv_part v = pt /\ pv_region v < next_region st) ->
  NoDup (map storage [sol; sol1; rhs; rhs1]) ->
  holds_grid true ROW_MAJOR b s sol (fun _ => 0%R) -> holds_grid true ROW_MAJOR b s sol1 (fun _ => 0%R) ->
  holds_grid true ROW_MAJOR b s rhs f -> holds_grid true ROW_MAJOR b s rhs1 f1 ->
  exists pl0 (n : nat) (x x1 : point -> R), do_calls lg (new_planner (option R)) (benchmark_calls sol sol1 rhs rhs1 m) = Ok pl0 /\
    (Z.of_nat n <= 2 * volume b)%Z /\ accepted (cg_run exact lg red pl0 n) st /\
    (forall c st' s', ends (cg_run exact lg red pl0 n) st s c st' s' -> holds_grid true ROW_MAJOR b s' sol x /\ holds_grid true ROW_MAJOR b s' sol1 x1) /\
    (forall p, in_box b p -> convolve b (benchmark_offsets dim) x p = f p /\ convolve b (benchmark_offsets dim) x1 p = f1 p).
Proof.
  intros ltT lg red dim nx ny nz sol sol1 rhs rhs1 sp pt m st s f f1 b Hdim Hx Hy Hz Hlg Hred Hpts Hm Hv Hnd S0 S1 R0 R1.
  destruct (benchmark_nonempty dim Hx Hy Hz) as [Hn Hlo]. fold b in Hn, Hlo.
  assert (Hd : offsets_dim b (benchmark_offsets dim)) by apply benchmark_dim.
  assert (Hg := linear_grid ROW_MAJOR (is_points lg sp) Hn Hpts).
  destruct (stencil_matrix_ok Hlo Hn Hd Hm lg Hg) as [M1 M2].
  destruct (@benchmark_set_up _ lg sol sol1 rhs rhs1 m st sp pt Hv Hnd M1 M2) as [pl0 Hs].
  destruct (@C61_cg_solves_stencil ltT ROW_MAJOR b (benchmark_offsets dim) lg red true m sp 2 (benchmark_calls sol sol1 rhs rhs1 m) st pl0 s
    (fun i => match i with 0 => f | _ => f1 end)) as (n & x & K1 & K2 & K3 & K4 & _); try assumption.
  - apply benchmark_symmetric.
  - apply C62_dominant_stencil_positive; [exact Hn|exact Hd|apply benchmark_dominant].
  - lia.
  - reflexivity.
  - intros v Hin. apply Hv. exact Hin.
  - reflexivity.
  - intros i v Hi. destruct i as [|[|i]]; cbn in Hi; [injection Hi as <-; exact S0|injection Hi as <-; exact S1|destruct i; discriminate].
  - intros i v Hi. destruct i as [|[|i]]; cbn in Hi; [injection Hi as <-; exact R0|injection Hi as <-; exact R1|destruct i; discriminate].
  - exists pl0, n, (x 0%nat), (x 1%nat). split; [apply Hs|]. split; [exact K1|]. split; [exact K2|]. split.
    + intros c st' s' He. split; [apply (K3 c st' s' He 0 sol eq_refl)|apply (K3 c st' s' He 1 sol1 eq_refl)].
    + intros p Hp. split; [apply (K4 0 p); [lia|exact Hp]|apply (K4 1 p); [lia|exact Hp]].
Qed.

(** the hypotheses are met: one piece, run sequentially, is a legal execution of the creator *)
Lemma one_piece_range (S : Z -> Prop) n : (forall k, S k <-> (0 <= k <= n - 1)%Z) -> is_partition S [fun k => (0 <=? k)%Z && (k <=? n - 1)%Z].
Proof.
  intros H. split; [|split].
  - intros k Hk. apply H in Hk. eexists. split; [left; reflexivity|]. cbn. lia.
  - intros i j mi mj a Hi Hj _ _. destruct i as [|[|i]]; destruct j as [|[|j]]; try discriminate; reflexivity.
  - intros m k [<-|[]] Hk. apply H. lia.
Qed.
Lemma linearized_csr_exists ltT o b (offs sorted : list (point * option R)) sp : lo b <> [] -> nonempty_box b -> offsets_dim b offs -> std_sort ltT o offs sorted ->
  exists c, stencil_matrix exact ltT o b offs sp true (CSR c).
Proof.
  intros Hlo Hn Hd Hs. assert (Hwf := nonempty_wf _ Hn).
  assert (Hds : offsets_dim b sorted) by (unfold offsets_dim; eapply Permutation_Forall; [apply Hs|exact Hd]).
  destruct (C20_stencil_size_exact Hlo Hwf Hd) as [[F1 HF1] _]. destruct (fill_lin_csr_terminates _ o b sorted Hlo Hn Hds) as [F2 HF2].
  set (size := Z.of_nat (length (in_bounds_pairs b offs))) in *.
  set (full := fun n => mk_dom1 0 (n - 1) (fun k => (0 <=? k)%Z && (k <=? n - 1)%Z)).
  destruct (HF2 (F1 + F2) (full size) (full (volume b)) ltac:(lia)) as [t Ht]; [cbn; intros; lia|cbn; intros; lia|left; cbn; lia|].
  eexists. eapply (@sm_linearized_csr _ exact ltT o b offs sp (F1 + F2) sorted [(full size, full (volume b))] _ size (fun _ => CRect 0 0)).
  split; [apply HF1; lia|]. split; [apply one_piece_range; intros k; unfold kernel_space; lia|]. split; [apply one_piece_range; intros k; reflexivity|].
  split; [constructor; [|constructor]; cbn; split; [intros; lia|split; [cbn; intros; lia|cbn; assert (L := Z.mul_nonneg_nonneg); assert (P := box_points_length o b Hwf); lia]]|].
  split; [exact Hs|]. exists [t]. split; [constructor; [exact Ht|constructor]|apply interleave_concat].
Qed.
Example C62_example : exists m,
  let b := benchmark_box 1 2 1 1 in
  legion_ok lg2 /\ (forall q, In q (is_points lg2 1) <-> exists k, (0 <= k < volume b)%Z /\ q = [k]) /\
  stencil_matrix exact cv_lt ROW_MAJOR b (real_offsets (benchmark_offsets 1)) 1 true m /\
  (forall v, In v [v2 3 10; v2 3 11; v2 3 12; v2 3 13] -> constructed lg2 v /\ pv_space v = 1 /\ pv_part v = 3 /\ pv_region v < 20) /\
  NoDup (map storage [v2 3 10; v2 3 11; v2 3 12; v2 3 13]) /\
  (* right-hand side one on two points: 2 x0 - x1 = 1 and 2 x1 - x0 = 1 *)
  (forall p, in_box b p -> convolve b (benchmark_offsets 1) (fun _ => 1%R) p = 1%R).
Proof.
  destruct (@linearized_csr_exists cv_lt ROW_MAJOR (benchmark_box 1 2 1 1) (real_offsets (benchmark_offsets 1))
    (real_offsets [([-1]%Z, (IZR (-1) / IZR 1)%R); ([0]%Z, (IZR 2 / IZR 1)%R); ([1]%Z, (IZR (-1) / IZR 1)%R)]) 1) as [c Hc].
  - discriminate.
  - apply benchmark_nonempty; lia.
  - apply real_offsets_dim, benchmark_dim.
  - split; [|repeat constructor]. unfold real_offsets. apply Permutation_map. unfold benchmark_offsets. cbn [benchmark_numerators map fst snd benchmark_denominator Nat.leb]. apply perm_swap.
  - exists (CSR c). cbn zeta. split; [exact lg2_ok|]. split; [|split; [exact Hc|split; [|split]]].
    + intros q. cbn. split.
      * intros [<-|[<-|[]]]; [exists 0%Z|exists 1%Z]; split; auto; lia.
      * intros [k [Hk ->]]. assert (k = 0 \/ k = 1)%Z as [->| ->] by lia; tauto.
    + cbn [In]. intros v [<-|[<-|[<-|[<-|[]]]]]; (split; [eexists 3, _, 0; reflexivity|cbn; repeat split; lia]).
    + cbn. repeat constructor; cbn [In]; intuition discriminate.
    + intros p (H1 & _ & H2). destruct p as [|x [|]]; try discriminate. specialize (H2 0 ltac:(cbn; lia)). cbn in H2. unfold convolve, benchmark_offsets. rewrite Rsum_map.
      cbn [benchmark_numerators benchmark_denominator Nat.leb]. rewrite !Rsum_cons, Rsum_nil. cbn [fst snd padd]. unfold zero_outside, contains. cbn [benchmark_box lo hi contains_aux]. rewrite !andb_true_r.
      assert (x = 0 \/ x = 1)%Z as [->| ->] by lia; cbn -[IZR Rplus Rmult Rdiv]; lra.
Qed.
