(** FloatOps: the planner operations in IEEE arithmetic, on vectors of floats (the counterpart of SolverFacts.v). *)
From Coq Require Import Reals Lra Lia ZArith.
From Coq Require Import Floats.SpecFloat.
From Verif Require Import Base Index Outcome Sched Async Arith Launch Vector PartitionSpec VectorFacts LaunchFacts Matrix MatrixSpec MatrixFacts
  MatvecFacts Builder BuilderFacts Exec ExactSum LinAlg Planner PlannerFacts PlannerSetup Solvers PropsVector PropsMatrix PropsPlanner PropsSolver SolverFacts PropsCG PropsCGConv
  Float FloatSum PropsFloat FloatPlanner FloatCGSpec PropsFloatCG.
Set Implicit Arguments.

Section Ops.
Variables p e : Z.
Hypothesis Hpe : format p e.
Variable lg : legion.
Hypothesis Hlg : legion_ok lg.
Variable red : nat -> list spec_float -> spec_float.
Notation A := (ieee p e).
Hypothesis Hred : legal_reduction A red.
Variable cs : list (setup_call spec_float).
Hypothesis Hdom : forall m d r, In (m, d, r) (mats_of cs) -> d < length (sols_of cs).
Hypothesis Hfe : float_entries p e cs.
Variable nw : nat.
Variable pl : planner spec_float.
Hypothesis Hw : working lg cs nw pl.
Notation n := (length (sols_of cs)).
Notation U := (unknowns lg cs).
Notation store := (store loc spec_float).
Notation contains := (vector_contains lg pl).

(** only planner vector [vi] may have changed *)
Definition fkeeps (vi : nat) (s s' : store) : Prop :=
  (forall vj f, vj < 2 + nw -> vj <> vi -> contains s vj f -> contains s' vj f) /\ (forall k, s' (LFut k) = s (LFut k)).
(** no vector changed, nor any future older than [st] *)
Definition fkeeps_all (st : ist) (s s' : store) : Prop :=
  (forall vj f, contains s vj f -> contains s' vj f) /\ (forall k, k < next_fut st -> s' (LFut k) = s (LFut k)).
Lemma contains_cell s vi f : vi < 2 + nw -> (contains s vi f <-> forall i q, i < n -> In q (pts lg pl i) -> s (cell pl vi i q) = f (i, q)).
Proof.
  intros Hv. split.
  - intros H i q Hi Hq. assert (Hc : component pl vi i (vec pl vi i)) by (apply (component_iff Hw); auto).
    apply (H i _ q Hc). rewrite (component_points Hw Hv Hc). exact Hq.
  - intros H i v q Hc Hq. rewrite (component_points Hw Hv Hc) in Hq. apply (component_iff Hw) in Hc; [|exact Hv]. destruct Hc as [Hi ->]. apply (H i q Hi Hq).
Qed.
Lemma updates_fkeeps vi g s s' : vi < 2 + nw -> updates lg pl n vi g s s' -> fkeeps vi s s'.
Proof.
  intros Hv [U1 U2]. destruct (working_ready Hw) as [R _]. split.
  - intros vj f Hj Hne Hf. apply contains_cell; [exact Hj|]. intros i q Hi Hq. rewrite U2 by (apply (other_cell R); auto).
    apply (proj1 (contains_cell s f Hj) Hf i q Hi Hq).
  - intros k. apply U2. apply fut_not_in.
Qed.
Lemma updates_contains vi g f s s' : vi < 2 + nw -> updates lg pl n vi g s s' -> (forall i q, i < n -> In q (pts lg pl i) -> g i q = f (i, q)) -> contains s' vi f.
Proof. intros Hv [U1 U2] H. apply contains_cell; [exact Hv|]. intros i q Hi Hq. rewrite (U1 i q Hi Hq). apply H; assumption. Qed.
Lemma frame_fkeeps_all st s s' : frame_fut st s s' -> fkeeps_all st s s'.
Proof.
  intros H. split.
  - intros vj f Hf i v q Hc Hq. rewrite H; [apply Hf; assumption|]. intros m _. split; [discriminate|intros c; discriminate].
  - intros k Hk. apply (frame_fut_old H Hk).
Qed.
Lemma wpf_zero vi (Q : unit -> ist -> store -> Prop) st s : vi < 2 + nw ->
  (forall s', contains s' vi (fun _ => a0 A) -> fkeeps vi s s' -> Q tt st s') -> wp (pl_zero_fill A lg pl vi) Q st s.
Proof.
  intros Hv HQ. destruct (working_ready Hw) as [R _]. apply (wp_zero_fill A Hlg R); [exact Hv|]. intros s' Hu.
  apply HQ; [|apply (updates_fkeeps Hv Hu)]. apply (updates_contains _ Hv Hu). reflexivity.
Qed.
Lemma wpf_copy vi vj x (Q : unit -> ist -> store -> Prop) st s : vi < 2 + nw -> vj < 2 + nw -> vi <> vj -> contains s vj x ->
  (forall s', contains s' vi x -> fkeeps vi s s' -> Q tt st s') -> wp (pl_copy A lg pl vi vj) Q st s.
Proof.
  intros Hv Hj Hne Hx HQ. destruct (working_ready Hw) as [R _]. apply (wp_copy A Hlg R); [exact Hv|exact Hj|exact Hne|]. intros s' Hu.
  apply HQ; [|apply (updates_fkeeps Hv Hu)]. apply (updates_contains _ Hv Hu). intros i q Hi Hq. apply (proj1 (contains_cell s x Hj) Hx i q Hi Hq).
Qed.
Lemma wpf_scal vi f c x (Q : unit -> ist -> store -> Prop) st s : vi < 2 + nw -> contains s vi x -> s (LFut f) = c ->
  (forall s', contains s' vi (fun u => amul A c (x u)) -> fkeeps vi s s' -> Q tt st s') -> wp (pl_scal A lg pl vi f) Q st s.
Proof.
  intros Hv Hx Hc HQ. destruct (working_ready Hw) as [R _]. apply (wp_scal A Hlg R); [exact Hv|]. intros s' Hu.
  apply HQ; [|apply (updates_fkeeps Hv Hu)]. apply (updates_contains _ Hv Hu). intros i q Hi Hq. rewrite Hc, (proj1 (contains_cell s x Hv) Hx i q Hi Hq). reflexivity.
Qed.
Lemma wpf_axpy vi fs vj c x y (Q : unit -> ist -> store -> Prop) st s : vi < 2 + nw -> vj < 2 + nw -> vi <> vj -> length fs <= 4 ->
  contains s vi y -> contains s vj x -> alpha_of A s fs = c ->
  (forall s', contains s' vi (fun u => sf_fma p e c (x u) (y u)) -> fkeeps vi s s' -> Q tt st s') -> wp (pl_axpy A lg pl vi fs vj) Q st s.
Proof.
  intros Hv Hj Hne Hfs Hy Hx Hc HQ. destruct (working_ready Hw) as [R _]. apply (wp_axpy A Hlg R); [exact Hv|exact Hj|exact Hne|exact Hfs|]. intros s' Hu.
  apply HQ; [|apply (updates_fkeeps Hv Hu)]. apply (updates_contains _ Hv Hu). intros i q Hi Hq.
  rewrite Hc, (proj1 (contains_cell s x Hj) Hx i q Hi Hq), (proj1 (contains_cell s y Hv) Hy i q Hi Hq). reflexivity.
Qed.
Lemma wpf_xpay vi fs vj c x y (Q : unit -> ist -> store -> Prop) st s : vi < 2 + nw -> vj < 2 + nw -> vi <> vj -> length fs <= 4 ->
  contains s vi y -> contains s vj x -> alpha_of A s fs = c ->
  (forall s', contains s' vi (fun u => sf_fma p e c (y u) (x u)) -> fkeeps vi s s' -> Q tt st s') -> wp (pl_xpay A lg pl vi fs vj) Q st s.
Proof.
  intros Hv Hj Hne Hfs Hy Hx Hc HQ. destruct (working_ready Hw) as [R _]. apply (wp_xpay A Hlg R); [exact Hv|exact Hj|exact Hne|exact Hfs|]. intros s' Hu.
  apply HQ; [|apply (updates_fkeeps Hv Hu)]. apply (updates_contains _ Hv Hu). intros i q Hi Hq.
  rewrite Hc, (proj1 (contains_cell s x Hj) Hx i q Hi Hq), (proj1 (contains_cell s y Hv) Hy i q Hi Hq). reflexivity.
Qed.
(** [q] is the product of the matrix with [x] up to the error bound for sums, where it is finite *)
Definition product_of (x q : unknown -> spec_float) : Prop := forall u, In u U -> is_float p e (q u) /\
  (is_number (q u) -> (Rabs (fvalue (q u) - app_op U (coefficient_of fvalue cs) (fun w => fvalue (x w)) u) <=
     sum_error p e (entry_count lg cs u) (app_op U (coefficient_of (fun z => Rabs (fvalue z)) cs) (fun w => Rabs (fvalue (x w))) u))%R).
Lemma wpf_matvec vi vj x (Q : unit -> ist -> store -> Prop) st s : vi < 2 + nw -> vj < 2 + nw -> vi <> vj -> contains s vj x -> (forall u, In u U -> is_float p e (x u)) ->
  (forall s' q, contains s' vi q -> product_of x q -> fkeeps vi s s' -> Q tt st s') -> wp (pl_matvec A lg pl vi vj) Q st s.
Proof.
  intros Hv Hj Hne Hx HF HQ. destruct (working_ready Hw) as [R _]. apply (wp_matvec Hlg R); [exact Hv|exact Hj|exact Hne|]. intros s' Hu.
  apply (HQ s' (entry pl s' vi)); [apply (contains_entry Hw); [exact Hv|reflexivity]| |apply (updates_fkeeps Hv Hu)].
  assert (Ex : forall u, In u U -> entry pl s vj u = x u) by (apply (contains_entry Hw); [exact Hj|exact Hx]).
  assert (P := @product_entry p e Hpe lg Hlg cs Hdom Hfe pl nw Hw vi vj s s' Hj Hu). intros u Hin.
  destruct (P ltac:(intros w Hwu; rewrite (Ex w Hwu); apply HF; exact Hwu) u Hin) as [P1 P2]. split; [exact P1|]. intros N. specialize (P2 N).
  rewrite (@app_ext _ U _ (fun w => fvalue (entry pl s vj w)) (fun w => fvalue (x w))) in P2 by (intros w Hwu; rewrite (Ex w Hwu); reflexivity).
  rewrite (@app_ext _ U _ (fun w => Rabs (fvalue (entry pl s vj w))) (fun w => Rabs (fvalue (x w)))) in P2 by (intros w Hwu; rewrite (Ex w Hwu); reflexivity). exact P2.
Qed.
(** the terms of a dot product *)
Definition terms (x y : unknown -> spec_float) : list R := map (fun u => fvalue (x u) * fvalue (y u))%R U.
Lemma wpf_dot vi vj x y (Q : nat -> ist -> store -> Prop) st s : 0 < n -> vi < 2 + nw -> vj < 2 + nw -> contains s vi x -> contains s vj y ->
  (forall u, In u U -> is_float p e (x u) /\ is_float p e (y u)) ->
  (forall f st' s', next_fut st <= f -> f < next_fut st' -> next_region st' = next_region st -> approx p e False (terms x y) (s' (LFut f)) -> fkeeps_all st s s' -> Q f st' s') ->
  wp (pl_dot A lg red pl vi vj) Q st s.
Proof.
  intros Hn Hv Hj Hx Hy HF HQ. destruct (working_ready Hw) as [R _]. apply (wp_dot R); [exact Hn|exact Hv|exact Hj|].
  intros f st' s' H1 H2 H3 H4 H5. apply HQ; auto; [|apply frame_fkeeps_all; exact H4].
  assert (Ex : forall u, In u U -> entry pl s vi u = x u) by (apply (contains_entry Hw); [exact Hv|exact Hx]).
  assert (Ey : forall u, In u U -> entry pl s vj u = y u) by (apply (contains_entry Hw); [exact Hj|exact Hy]).
  unfold terms. erewrite map_ext_in; [apply (@dot_entry p e Hpe lg Hlg red Hred cs pl nw Hw s vi vj); [exact Hv|exact Hj| |exact H5]|].
  - intros u Hu. rewrite (Ex u Hu), (Ey u Hu). apply HF. exact Hu.
  - intros u Hu. cbn beta. rewrite (Ex u Hu), (Ey u Hu). reflexivity.
Qed.
Lemma wpf_scalar args f (Q : nat -> ist -> store -> Prop) st s :
  (forall s', s' (LFut (next_fut st)) = f (map (fun k => s (LFut k)) args) -> fkeeps_all st s s' -> Q (next_fut st) (next st) s') -> wp (scalar_task args f) Q st s.
Proof.
  intros HQ. apply wp_scalar_task. intros s' E F. apply HQ; [exact E|]. apply frame_fkeeps_all. apply task_frame. exact F.
Qed.
End Ops.
