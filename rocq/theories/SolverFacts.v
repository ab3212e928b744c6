(** SolverFacts: the planner operations in exact arithmetic, on vectors of real numbers. *)
From Coq Require Import Reals Lra.
From Verif Require Import Base Index Outcome Sched Async Arith Launch Vector PartitionSpec VectorFacts LaunchFacts Matrix MatrixSpec MatrixFacts
  MatvecFacts Builder BuilderFacts Exec ExactSum LinAlg Planner PlannerFacts PlannerSetup Solvers PropsVector PropsMatrix PropsPlanner.
Set Implicit Arguments.

Section Exact.
Variable lg : legion.
Hypothesis Hlg : legion_ok lg.
Variable red : nat -> list (option R) -> option R.
Hypothesis Hred : legal_reduction exact red.
Variable cs : list (setup_call (option R)).
Hypothesis Hre : real_entries cs.
Variable nw : nat.
Variable pl : planner (option R).
Hypothesis Hw : working lg cs nw pl.
Notation n := (length (sols_of cs)).
Notation U := (unknowns lg cs).
Notation a := (operator cs).
Notation store := (store loc (option R)).

(** only planner vector [vi] may have changed *)
Definition keeps (vi : nat) (s s' : store) : Prop :=
  (forall vj f, vj < 2 + nw -> vj <> vi -> vector_is lg pl s vj f -> vector_is lg pl s' vj f) /\ (forall k, s' (LFut k) = s (LFut k)).
(** no vector changed, nor any future older than [st] *)
Definition keeps_all (st : ist) (s s' : store) : Prop :=
  (forall vj f, vector_is lg pl s vj f -> vector_is lg pl s' vj f) /\ (forall k, k < next_fut st -> s' (LFut k) = s (LFut k)).
Lemma vector_is_cell s vi f : vi < 2 + nw -> (vector_is lg pl s vi f <-> forall i p, i < n -> In p (pts lg pl i) -> s (cell pl vi i p) = Some (f (i, p))).
Proof.
  intros Hv. split.
  - intros H i p Hi Hp. assert (Hc : component pl vi i (vec pl vi i)) by (apply (component_iff Hw); auto).
    apply (H i _ p Hc). rewrite (component_points Hw Hv Hc). exact Hp.
  - intros H i v p Hc Hp. rewrite (component_points Hw Hv Hc) in Hp. apply (component_iff Hw) in Hc; [|exact Hv]. destruct Hc as [Hi ->]. apply (H i p Hi Hp).
Qed.
Lemma updates_keeps vi g s s' : vi < 2 + nw -> updates lg pl n vi g s s' -> keeps vi s s'.
Proof.
  intros Hv [U1 U2]. destruct (working_ready Hw) as [R _]. split.
  - intros vj f Hj Hne Hf. apply vector_is_cell; [exact Hj|]. intros i p Hi Hp. rewrite U2 by (apply (other_cell R); auto).
    apply (proj1 (vector_is_cell s f Hj) Hf i p Hi Hp).
  - intros k. apply U2. apply fut_not_in.
Qed.
Lemma updates_is vi g f s s' : vi < 2 + nw -> updates lg pl n vi g s s' -> (forall i p, i < n -> In p (pts lg pl i) -> g i p = Some (f (i, p))) -> vector_is lg pl s' vi f.
Proof. intros Hv [U1 U2] H. apply vector_is_cell; [exact Hv|]. intros i p Hi Hp. rewrite (U1 i p Hi Hp). apply H; assumption. Qed.
Lemma frame_keeps_all st s s' : frame_fut st s s' -> keeps_all st s s'.
Proof.
  intros H. split.
  - intros vj f Hf i v p Hc Hp. rewrite H; [apply Hf; assumption|]. intros m _. split; [discriminate|intros c; discriminate].
  - intros k Hk. apply (frame_fut_old H Hk).
Qed.
Lemma vector_is_ext s vi f g : vi < 2 + nw -> (forall u, In u U -> f u = g u) -> vector_is lg pl s vi f -> vector_is lg pl s vi g.
Proof.
  intros Hv H Hf. apply vector_is_cell; [exact Hv|]. intros i p Hi Hp. rewrite <- H; [apply (proj1 (vector_is_cell s f Hv) Hf i p Hi Hp)|].
  apply in_unknowns. split; [exact Hi|]. unfold space_of. rewrite <- (pts_space Hw Hi). exact Hp.
Qed.

Lemma wpx_zero vi (Q : unit -> ist -> store -> Prop) st s : vi < 2 + nw ->
  (forall s', vector_is lg pl s' vi (fun _ => 0%R) -> keeps vi s s' -> Q tt st s') -> wp (pl_zero_fill exact lg pl vi) Q st s.
Proof.
  intros Hv HQ. destruct (working_ready Hw) as [R _]. apply (wp_zero_fill exact Hlg R); [exact Hv|]. intros s' Hu.
  apply HQ; [|apply (updates_keeps Hv Hu)]. apply (updates_is _ Hv Hu). reflexivity.
Qed.
Lemma wpx_copy vi vj x (Q : unit -> ist -> store -> Prop) st s : vi < 2 + nw -> vj < 2 + nw -> vi <> vj -> vector_is lg pl s vj x ->
  (forall s', vector_is lg pl s' vi x -> keeps vi s s' -> Q tt st s') -> wp (pl_copy exact lg pl vi vj) Q st s.
Proof.
  intros Hv Hj Hne Hx HQ. destruct (working_ready Hw) as [R _]. apply (wp_copy exact Hlg R); [exact Hv|exact Hj|exact Hne|]. intros s' Hu.
  apply HQ; [|apply (updates_keeps Hv Hu)]. apply (updates_is _ Hv Hu). intros i p Hi Hp. apply (proj1 (vector_is_cell s x Hj) Hx i p Hi Hp).
Qed.
Lemma wpx_scal vi f c x (Q : unit -> ist -> store -> Prop) st s : vi < 2 + nw -> vector_is lg pl s vi x -> s (LFut f) = Some c ->
  (forall s', vector_is lg pl s' vi (fun u => c * x u)%R -> keeps vi s s' -> Q tt st s') -> wp (pl_scal exact lg pl vi f) Q st s.
Proof.
  intros Hv Hx Hc HQ. destruct (working_ready Hw) as [R _]. apply (wp_scal exact Hlg R); [exact Hv|]. intros s' Hu.
  apply HQ; [|apply (updates_keeps Hv Hu)]. apply (updates_is _ Hv Hu). intros i p Hi Hp. rewrite Hc, (proj1 (vector_is_cell s x Hv) Hx i p Hi Hp). reflexivity.
Qed.
Lemma wpx_axpy vi fs vj c x y (Q : unit -> ist -> store -> Prop) st s : vi < 2 + nw -> vj < 2 + nw -> vi <> vj -> length fs <= 4 ->
  vector_is lg pl s vi y -> vector_is lg pl s vj x -> alpha_of exact s fs = Some c ->
  (forall s', vector_is lg pl s' vi (fun u => y u + c * x u)%R -> keeps vi s s' -> Q tt st s') -> wp (pl_axpy exact lg pl vi fs vj) Q st s.
Proof.
  intros Hv Hj Hne Hfs Hy Hx Hc HQ. destruct (working_ready Hw) as [R _]. apply (wp_axpy exact Hlg R); [exact Hv|exact Hj|exact Hne|exact Hfs|]. intros s' Hu.
  apply HQ; [|apply (updates_keeps Hv Hu)]. apply (updates_is _ Hv Hu). intros i p Hi Hp.
  rewrite Hc, (proj1 (vector_is_cell s x Hj) Hx i p Hi Hp), (proj1 (vector_is_cell s y Hv) Hy i p Hi Hp). cbn [exact afma lift3]. f_equal. ring.
Qed.
Lemma wpx_xpay vi fs vj c x y (Q : unit -> ist -> store -> Prop) st s : vi < 2 + nw -> vj < 2 + nw -> vi <> vj -> length fs <= 4 ->
  vector_is lg pl s vi y -> vector_is lg pl s vj x -> alpha_of exact s fs = Some c ->
  (forall s', vector_is lg pl s' vi (fun u => x u + c * y u)%R -> keeps vi s s' -> Q tt st s') -> wp (pl_xpay exact lg pl vi fs vj) Q st s.
Proof.
  intros Hv Hj Hne Hfs Hy Hx Hc HQ. destruct (working_ready Hw) as [R _]. apply (wp_xpay exact Hlg R); [exact Hv|exact Hj|exact Hne|exact Hfs|]. intros s' Hu.
  apply HQ; [|apply (updates_keeps Hv Hu)]. apply (updates_is _ Hv Hu). intros i p Hi Hp.
  rewrite Hc, (proj1 (vector_is_cell s x Hj) Hx i p Hi Hp), (proj1 (vector_is_cell s y Hv) Hy i p Hi Hp). cbn [exact afma lift3]. f_equal. ring.
Qed.
Lemma wpx_matvec vi vj x (Q : unit -> ist -> store -> Prop) st s : vi < 2 + nw -> vj < 2 + nw -> vi <> vj -> vector_is lg pl s vj x ->
  (forall s', vector_is lg pl s' vi (app_op U a x) -> keeps vi s s' -> Q tt st s') -> wp (pl_matvec exact lg pl vi vj) Q st s.
Proof.
  intros Hv Hj Hne Hx HQ. destruct (working_ready Hw) as [R _].
  assert (W : wp (pl_matvec exact lg pl vi vj) (fun x0 st' s1 => st' = st /\ updates lg pl n vi (matvec_value exact lg pl (fun i p => s (cell pl vj i p))) s s1) st s).
  { apply (wp_matvec Hlg R); auto. }
  destruct W as [[] [lns [st' [E [G [-> Hu]]]]]]. exists tt, lns, st. split; [exact E|]. split; [exact G|]. apply HQ; [|apply (updates_keeps Hv Hu)].
  assert (He : ends (pl_matvec exact lg pl vi vj) st s tt st (effect lns s)) by (apply (@ends_effect _ _ _ st tt lns st E G); auto).
  exact (proj1 (@C16_planner_matvec_exact lg cs nw pl vi vj st s st _ x Hlg Hw Hre Hv Hj Hne He Hx)).
Qed.
Lemma wpx_dot vi vj x y (Q : nat -> ist -> store -> Prop) st s : 0 < n -> vi < 2 + nw -> vj < 2 + nw -> vector_is lg pl s vi x -> vector_is lg pl s vj y ->
  (forall f st' s', next_fut st <= f -> f < next_fut st' -> next_region st' = next_region st -> s' (LFut f) = Some (ip U x y) -> keeps_all st s s' -> Q f st' s') ->
  wp (pl_dot exact lg red pl vi vj) Q st s.
Proof.
  intros Hn Hv Hj Hx Hy HQ. destruct (working_ready Hw) as [R _]. apply (wp_dot R); [exact Hn|exact Hv|exact Hj|].
  intros f st' s' H1 H2 H3 H4 H5. apply HQ; auto; [|apply frame_keeps_all; exact H4].
  apply (@dot_value_exact lg red pl cs nw s vi vj _ x y Hlg Hred Hw Hv Hj Hx Hy H5).
Qed.
(** a scalar task *)
Lemma wpx_scalar args f (Q : nat -> ist -> store -> Prop) st s :
  (forall s', s' (LFut (next_fut st)) = f (map (fun k => s (LFut k)) args) -> keeps_all st s s' -> Q (next_fut st) (next st) s') -> wp (scalar_task args f) Q st s.
Proof.
  intros HQ. apply wp_scalar_task. intros s' E F. apply HQ; [exact E|]. apply frame_keeps_all. apply task_frame. exact F.
Qed.
End Exact.
(** the coefficient of two and three factors *)
Lemma alpha_one s f c : s (LFut f) = Some c -> alpha_of exact s [f] = Some c.
Proof. intros H. unfold alpha_of. cbn. unfold fut. rewrite H. reflexivity. Qed.
Lemma alpha_two s f g c d : s (LFut f) = Some c -> s (LFut g) = Some d -> d <> 0%R -> alpha_of exact s [f; g] = Some (c / d)%R.
Proof. intros H1 H2 Hd. unfold alpha_of. cbn. unfold fut. rewrite H1, H2. cbn. destruct (Req_EM_T d 0); [contradiction|reflexivity]. Qed.
Lemma alpha_three s f g h c d e : s (LFut f) = Some c -> s (LFut g) = Some d -> s (LFut h) = Some e -> e <> 0%R -> alpha_of exact s [f; g; h] = Some (c * d / e)%R.
Proof. intros H1 H2 H3 Hd. unfold alpha_of. cbn. unfold fut. rewrite H1, H2, H3. cbn. destruct (Req_EM_T e 0); [contradiction|reflexivity]. Qed.
