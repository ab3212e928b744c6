(** Exec: what a user of the API can observe.  A user program (an application-thread computation [m : M X]) is
    run: its calls issue launches, the runtime executes them asynchronously (Async.v), and when everything has
    drained the store is in some final state. *)
From Verif Require Import Base Index Outcome Sched Async Arith Launch Vector VectorFacts LaunchFacts Builder BuilderFacts.
Set Implicit Arguments.

Section Exec.
Variable T : Type.
Notation store := (store loc T).

(** The launches [lns], executed by the runtime in some legal order from store [s], may leave store [s']. *)
Definition launches_end (lns : list (launch T)) (s s' : store) : Prop :=
  exists tr, execution (map (@op_of T) lns) tr /\ forall l, s' l = run loc_dec (map snd tr) s l.
(** Program [m], run with allocator state [st] and store [s], may return [x] and end with store [s']. *)
Definition ends {X} (m : M T X) (st : ist) (s : store) (x : X) (st' : ist) (s' : store) : Prop :=
  exists lns, m st = Ok (x, lns, st') /\ launches_end lns s s'.
(** The application thread runs [m] to the end: no assertion fails, no undefined behaviour. *)
Definition accepted {X} (m : M T X) (st : ist) : Prop := exists r, m st = Ok r.
(** An assertion fails while the program is issued. *)
Definition rejected {X} (m : M T X) (st : ist) : Prop := m st = AssertFail.

(** The runtime never deadlocks: some complete execution exists. *)
Theorem some_end (lns : list (launch T)) s : exists s', launches_end lns s s'.
Proof.
  destruct (no_deadlock (map (@op_of T) lns) (map (@o_tasks loc T) (map (@op_of T) lns))) as [tr [rem [H1 H2]]].
  exists (run loc_dec (map snd tr) s). exists tr. split; [exists rem; split; assumption|reflexivity].
Qed.
Lemma launches_end_effect (lns : list (launch T)) s s' : Forall good_launch lns -> launches_end lns s s' ->
  forall l, s' l = effect lns s l.
Proof. intros Hg [tr [Hx Hs]] l. rewrite Hs. apply executions_equal_effect; assumption. Qed.

Theorem wp_accepted X (m : M T X) Q st s : wp m Q st s -> accepted m st.
Proof. intros [x [lns [st' [H _]]]]. eexists; exact H. Qed.
Theorem wp_ends X (m : M T X) (Q : X -> ist -> store -> Prop) st s x st' s' :
  wp m Q st s -> ends m st s x st' s' -> exists s1, Q x st' s1 /\ forall l, s' l = s1 l.
Proof.
  intros [x0 [lns0 [st0 [H1 [H2 H3]]]]] [lns [H Hx]]. rewrite H in H1. injection H1 as -> -> ->.
  exists (effect lns0 s). split; [exact H3|]. apply launches_end_effect; assumption.
Qed.
Theorem accepted_ends X (m : M T X) st s : accepted m st -> exists x st' s', ends m st s x st' s'.
Proof.
  intros [[[x lns] st'] H]. destruct (some_end lns s) as [s' Hs]. exists x, st', s', lns. split; assumption.
Qed.
(** Executions of good programs are deterministic. *)
Theorem wp_deterministic X (m : M T X) (Q : X -> ist -> store -> Prop) st s x1 st1 s1 x2 st2 s2 :
  wp m Q st s -> ends m st s x1 st1 s1 -> ends m st s x2 st2 s2 -> x1 = x2 /\ st1 = st2 /\ forall l, s1 l = s2 l.
Proof.
  intros [x0 [lns0 [st0 [H1 [H2 H3]]]]] [lns [H Hx]] [lns' [H' Hx']]. rewrite H in H1. injection H1 as -> -> ->.
  rewrite H in H'. injection H' as -> -> ->. split; [reflexivity|]. split; [reflexivity|].
  intros l. rewrite (launches_end_effect H2 Hx), (launches_end_effect H2 Hx'). reflexivity.
Qed.
End Exec.
