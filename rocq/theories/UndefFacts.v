(** UndefFacts: undefined values (division by zero, root of a negative number; NaN or infinity in floating point)
    propagate through the planner operations. *)
From Coq Require Import Reals.
From Verif Require Import Base Index Outcome Sched Async Arith Launch Vector PartitionSpec VectorFacts LaunchFacts Matrix MatrixSpec MatrixFacts
  MatvecFacts Builder BuilderFacts Exec ExactSum LinAlg Planner PlannerFacts PlannerSetup Solvers PropsVector PropsMatrix PropsPlanner.
Set Implicit Arguments.

(** every entry of planner vector [vi] is undefined *)
Definition vector_undefined (lg : legion) (pl : planner (option R)) (s : store loc (option R)) (vi : nat) : Prop :=
  forall i v p, component pl vi i v -> In p (is_points lg (pv_space v)) -> s (at_point v p) = None.

Section Undef.
Variable lg : legion.
Hypothesis Hlg : legion_ok lg.
Variable red : nat -> list (option R) -> option R.
Variable cs : list (setup_call (option R)).
Variable nw : nat.
Variable pl : planner (option R).
Hypothesis Hw : working lg cs nw pl.
Notation n := (length (sols_of cs)).
Notation store := (store loc (option R)).
Notation undef := (vector_undefined lg pl).

Definition ukeeps (vi : nat) (s s' : store) : Prop :=
  (forall vj, vj < 2 + nw -> vj <> vi -> undef s vj -> undef s' vj) /\ (forall k, s' (LFut k) = s (LFut k)).
Definition ukeeps_all (st : ist) (s s' : store) : Prop :=
  (forall vj, undef s vj -> undef s' vj) /\ (forall k, k < next_fut st -> s' (LFut k) = s (LFut k)).
Lemma undef_cell s vi : vi < 2 + nw -> (undef s vi <-> forall i p, i < n -> In p (pts lg pl i) -> s (cell pl vi i p) = None).
Proof.
  intros Hv. split.
  - intros H i p Hi Hp. assert (Hc : component pl vi i (vec pl vi i)) by (apply (component_iff Hw); auto).
    apply (H i _ p Hc). rewrite (component_points Hw Hv Hc). exact Hp.
  - intros H i v p Hc Hp. rewrite (component_points Hw Hv Hc) in Hp. apply (component_iff Hw) in Hc; [|exact Hv]. destruct Hc as [Hi ->]. apply (H i p Hi Hp).
Qed.
Lemma updates_ukeeps vi g s s' : vi < 2 + nw -> updates lg pl n vi g s s' -> ukeeps vi s s'.
Proof.
  intros Hv [U1 U2]. destruct (working_ready Hw) as [R _]. split.
  - intros vj Hj Hne Hf. apply undef_cell; [exact Hj|]. intros i p Hi Hp. rewrite U2 by (apply (other_cell R); auto).
    apply (proj1 (undef_cell s Hj) Hf i p Hi Hp).
  - intros k. apply U2. apply fut_not_in.
Qed.
Lemma frame_ukeeps st s s' : frame_fut st s s' -> ukeeps_all st s s'.
Proof.
  intros H. split.
  - intros vj Hf i v p Hc Hp. rewrite H; [apply (Hf i v p Hc Hp)|]. intros m _. split; [discriminate|intros c; discriminate].
  - intros k Hk. apply (frame_fut_old H Hk).
Qed.

Lemma wpu_scalar args f (Q : nat -> ist -> store -> Prop) st s :
  (forall s', s' (LFut (next_fut st)) = f (map (fun k => s (LFut k)) args) -> ukeeps_all st s s' -> Q (next_fut st) (next st) s') -> wp (scalar_task args f) Q st s.
Proof.
  intros HQ. apply wp_scalar_task. intros s' E F. apply HQ; [exact E|]. apply frame_ukeeps. apply task_frame. exact F.
Qed.
Lemma wpu_dot vi vj (Q : nat -> ist -> store -> Prop) st s : 0 < n -> vi < 2 + nw -> vj < 2 + nw ->
  (forall f st' s', next_fut st <= f -> f < next_fut st' -> ukeeps_all st s s' -> Q f st' s') -> wp (pl_dot exact lg red pl vi vj) Q st s.
Proof.
  intros Hn Hv Hj HQ. destruct (working_ready Hw) as [R _]. apply (wp_dot R); [exact Hn|exact Hv|exact Hj|].
  intros f st' s' H1 H2 H3 H4 H5. apply HQ; auto. apply frame_ukeeps; exact H4.
Qed.
Lemma wpu_matvec vi vj (Q : unit -> ist -> store -> Prop) st s : vi < 2 + nw -> vj < 2 + nw -> vi <> vj ->
  (forall s', ukeeps vi s s' -> Q tt st s') -> wp (pl_matvec exact lg pl vi vj) Q st s.
Proof.
  intros Hv Hj Hne HQ. destruct (working_ready Hw) as [R _]. apply (wp_matvec Hlg R); auto. intros s' Hu. apply HQ. apply (updates_ukeeps Hv Hu).
Qed.
Lemma fma_none a x y : a = None \/ y = None -> afma exact a x y = None.
Proof. intros [-> | ->]; [reflexivity|]. destruct a, x; reflexivity. Qed.
Lemma fma_none2 a x y : a = None \/ x = None -> afma exact a x y = None.
Proof. intros [-> | ->]; [reflexivity|]. destruct a; reflexivity. Qed.
Lemma wpu_axpy vi fs vj (Q : unit -> ist -> store -> Prop) st s : vi < 2 + nw -> vj < 2 + nw -> vi <> vj -> length fs <= 4 ->
  (forall s', (alpha_of exact s fs = None \/ undef s vi \/ undef s vj -> undef s' vi) -> ukeeps vi s s' -> Q tt st s') -> wp (pl_axpy exact lg pl vi fs vj) Q st s.
Proof.
  intros Hv Hj Hne Hfs HQ. destruct (working_ready Hw) as [R _]. apply (wp_axpy exact Hlg R); [exact Hv|exact Hj|exact Hne|exact Hfs|]. intros s' Hu.
  apply HQ; [|apply (updates_ukeeps Hv Hu)]. intros H. apply undef_cell; [exact Hv|]. intros i p Hi Hp. rewrite (proj1 Hu i p Hi Hp).
  destruct H as [H|[H|H]]; [apply fma_none; auto|apply fma_none; right; apply (proj1 (undef_cell s Hv) H i p Hi Hp)|apply fma_none2; right; apply (proj1 (undef_cell s Hj) H i p Hi Hp)].
Qed.
Lemma wpu_xpay vi fs vj (Q : unit -> ist -> store -> Prop) st s : vi < 2 + nw -> vj < 2 + nw -> vi <> vj -> length fs <= 4 ->
  (forall s', (alpha_of exact s fs = None \/ undef s vi \/ undef s vj -> undef s' vi) -> ukeeps vi s s' -> Q tt st s') -> wp (pl_xpay exact lg pl vi fs vj) Q st s.
Proof.
  intros Hv Hj Hne Hfs HQ. destruct (working_ready Hw) as [R _]. apply (wp_xpay exact Hlg R); [exact Hv|exact Hj|exact Hne|exact Hfs|]. intros s' Hu.
  apply HQ; [|apply (updates_ukeeps Hv Hu)]. intros H. apply undef_cell; [exact Hv|]. intros i p Hi Hp. rewrite (proj1 Hu i p Hi Hp).
  destruct H as [H|[H|H]]; [apply fma_none; auto|apply fma_none2; right; apply (proj1 (undef_cell s Hv) H i p Hi Hp)|apply fma_none; right; apply (proj1 (undef_cell s Hj) H i p Hi Hp)].
Qed.
Lemma wpu_scal vi f (Q : unit -> ist -> store -> Prop) st s : vi < 2 + nw ->
  (forall s', (s (LFut f) = None \/ undef s vi -> undef s' vi) -> ukeeps vi s s' -> Q tt st s') -> wp (pl_scal exact lg pl vi f) Q st s.
Proof.
  intros Hv HQ. destruct (working_ready Hw) as [R _]. apply (wp_scal exact Hlg R); [exact Hv|]. intros s' Hu.
  apply HQ; [|apply (updates_ukeeps Hv Hu)]. intros H. apply undef_cell; [exact Hv|]. intros i p Hi Hp. rewrite (proj1 Hu i p Hi Hp).
  destruct H as [-> |H]; [reflexivity|]. rewrite (proj1 (undef_cell s Hv) H i p Hi Hp). destruct (s (LFut f)); reflexivity.
Qed.
End Undef.
Lemma alpha_one_none s f : s (LFut f) = None -> alpha_of exact s [f] = None.
Proof. intros H. unfold alpha_of. cbn. unfold fut. rewrite H. reflexivity. Qed.

Ltac ku :=
  first
  [ eassumption
  | match goal with
    | K : ukeeps _ _ _ _ ?s1 ?s2 |- vector_undefined _ _ ?s2 _ => apply (proj1 K); [lia|lia|ku]
    | K : ukeeps_all _ _ _ ?s1 ?s2 |- vector_undefined _ _ ?s2 _ => apply (proj1 K); ku
    end ].
Ltac kuf :=
  first
  [ eassumption
  | match goal with
    | K : ukeeps _ _ _ _ ?s1 ?s2 |- ?s2 (LFut _) = _ => rewrite (proj2 K); kuf
    | K : ukeeps_all _ _ _ ?s1 ?s2 |- ?s2 (LFut _) = _ => rewrite (proj2 K) by (cbn [next next_fut] in *; lia); kuf
    end ].
