(** GpuStreamsFacts: the invariant of the streams model and its simulation by Async.v. *)
From Verif Require Import Base Outcome Sched Async CudaHandles PropsCudaHandles GpuStreams.
Set Implicit Arguments.

Section Facts.
Variables L V : Type.
Notation step := (step L V).
Notation op := (op L V).
Notation call := (call L V).
Notation item := (item L V).
Notation state := (state L V).
Notation status := (status L V).

(** ** bodies *)
Fixpoint steps_of (cs : list call) : list step :=
  match cs with
  | [] => []
  | (Compute ss | LibCall _ ss | Kernel ss) :: r => ss ++ steps_of r
  | _ :: r => steps_of r
  end.
Fixpoint streams_ok (f : library -> Prop) (cs : list call) : Prop :=
  match cs with
  | [] => True
  | SetStream _ _ l :: r => streams_ok (fun l' => l' = l \/ f l') r
  | LibCall l _ :: r => f l /\ streams_ok f r
  | _ :: r => streams_ok f r
  end.
Fixpoint well_ordered (queued : bool) (cs : list call) : Prop :=
  match cs with
  | [] => True
  | Compute ss :: r => (queued = true -> ss = []) /\ well_ordered queued r
  | (LibCall _ _ | Kernel _) :: r => well_ordered true r
  | Sync _ _ :: r => well_ordered false r
  | _ :: r => well_ordered queued r
  end.
Definition computes (c : call) : Prop := match c with Compute _ => True | _ => False end.

Lemma streams_ok_mono (f g : library -> Prop) cs : (forall l, f l -> g l) -> streams_ok f cs -> streams_ok g cs.
Proof.
  revert f g. induction cs as [|c cs IH]; intros f g H; [auto|]. destruct c; cbn; intros Hs; try (eapply IH; [|exact Hs]; assumption).
  - eapply IH; [|exact Hs]. intros l' [E|E]; auto.
  - destruct Hs as [H1 H2]. split; [auto|]. eapply IH; [|exact H2]. assumption.
Qed.
Lemma body_steps v (t : list step) : steps_of (body v t) = t.
Proof.
  destruct v as [| | | |[]| |n]; cbn; rewrite ?app_nil_r; try reflexivity; destruct t as [|a t]; cbn; rewrite ?app_nil_r; try reflexivity.
  destruct n as [|n]; [reflexivity|]. cbn [firstn skipn app]. f_equal. apply firstn_skipn.
Qed.
Lemma body_streams v (t : list step) f : streams_ok f (body v t).
Proof. destruct v as [| | | |[]| |n]; cbn; auto; destruct t; cbn; auto. Qed.
Lemma body_ordered v (t : list step) : well_ordered false (body v t).
Proof. destruct v as [| | | |[]| |n]; cbn; auto; try (split; [discriminate|exact I]); destruct t; cbn; auto. Qed.

(** ** queues *)
Definition queued (q : list item) (i j : nat) : list step :=
  flat_map (fun x => match x with Work i' j' a => if (i' =? i) && (j' =? j) then [a] else [] | Marker _ _ _ _ => [] end) q.
Lemma queued_app q1 q2 i j : queued (q1 ++ q2) i j = queued q1 i j ++ queued q2 i j.
Proof. apply flat_map_app. Qed.
Lemma queued_work i j ss : queued (map (Work i j) ss) i j = ss.
Proof. induction ss as [|a ss IH]; [reflexivity|]. cbn. rewrite !Nat.eqb_refl. cbn. f_equal. exact IH. Qed.
Lemma queued_other i j i' j' (ss : list step) : (i, j) <> (i', j') -> queued (map (Work i j) ss) i' j' = [].
Proof.
  intros H. induction ss as [|a ss IH]; [reflexivity|]. cbn.
  destruct (Nat.eqb_spec i i') as [->|]; destruct (Nat.eqb_spec j j') as [->|]; cbn; try exact IH. congruence.
Qed.
Lemma queued_none q i j : (forall a, ~ In (Work i j a) q) -> queued q i j = [].
Proof.
  induction q as [|x q IH]; intros H; [reflexivity|]. change (x :: q) with ([x] ++ q). rewrite queued_app, IH by (intros a Ha; apply (H a); right; exact Ha). rewrite app_nil_r.
  destruct x as [i' j' a|]; [|reflexivity]. unfold queued. cbn. destruct (Nat.eqb_spec i' i) as [->|]; destruct (Nat.eqb_spec j' j) as [->|]; cbn; try reflexivity.
  destruct (H a). left. reflexivity.
Qed.
Lemma queued_in q i j a : In a (queued q i j) <-> In (Work i j a) q.
Proof.
  unfold queued. rewrite in_flat_map. split.
  - intros [[i' j' b|i' j'] [H1 H2]]; [|destruct H2]. destruct (Nat.eqb_spec i' i) as [->|]; destruct (Nat.eqb_spec j' j) as [->|]; cbn in H2; try contradiction.
    destruct H2 as [->|[]]. exact H1.
  - intros H. eexists. split; [exact H|]. cbn. rewrite !Nat.eqb_refl. left. reflexivity.
Qed.

(** ** state updates *)
Lemma status_same (d : state) i j x : task_status (set_status d i j x) i j = x.
Proof. cbn. rewrite !Nat.eqb_refl. reflexivity. Qed.
Lemma status_other (d : state) i j x i' j' : (i', j') <> (i, j) -> task_status (set_status d i j x) i' j' = task_status d i' j'.
Proof. intros H. cbn. destruct (Nat.eqb_spec i' i) as [->|]; destruct (Nat.eqb_spec j' j) as [->|]; cbn; try reflexivity. congruence. Qed.
Lemma queue_same (d : state) s q : queue (set_queue d s q) s = q.
Proof. cbn. rewrite Nat.eqb_refl. reflexivity. Qed.
Lemma queue_other (d : state) s q s' : s' <> s -> queue (set_queue d s q) s' = queue d s'.
Proof. intros H. cbn. destruct (Nat.eqb_spec s' s); [contradiction|reflexivity]. Qed.
Lemma pair_dec (i j i' j' : nat) : {(i, j) = (i', j')} + {(i, j) <> (i', j')}.
Proof. decide equality; apply Nat.eq_dec. Qed.

Variable bits : nat.
Variable m : machine.
Variable ops : list op.
Notation task_of := (task_of ops).
Notation may_start := (may_start ops).
Notation move := (move bits m ops).
Notation moves := (moves bits m ops).

(** No two GPUs used by the program share a slot of the handle table. *)
Definition own_slots : Prop := forall i j i' j', on_device m i j = true -> on_device m i' j' = true ->
  same_slot bits (m_proc m i j) (m_proc m i' j') -> m_proc m i j = m_proc m i' j'.
Definition slot (i j : nat) : Z := (proc_id (m_proc m i j) mod 2 ^ Z.of_nat bits)%Z.
Definition stream_set (d : state) (i j : nat) (l : library) : Prop := handle_stream d (slot i j) l = m_stream m i j.

Record inv (d : state) : Prop := mk_inv {
  i_valid : forall i j, task_status d i j <> Waiting _ _ -> exists t, task_of i j = Some t;
  i_started : forall i j, task_status d i j <> Waiting _ _ -> may_start d i;
  i_work : forall s i j a, In (Work i j a) (queue d s) -> s = m_stream m i j /\ on_device m i j = true /\
             ((exists rest, task_status d i j = Running rest) \/ task_status d i j = Returned _ _);
  i_marker : forall s q1 i j q2, queue d s = q1 ++ Marker _ _ i j :: q2 -> s = m_stream m i j /\ task_status d i j = Returned _ _ /\
             (forall a, ~ In (Work i j a) q2) /\ ~ In (Marker _ _ i j) q2;
  i_returned : forall i j, task_status d i j = Returned _ _ -> In (Marker _ _ i j) (queue d (m_stream m i j));
  i_exclusive : forall i j r i' j' r', task_status d i j = Running r -> task_status d i' j' = Running r' ->
             m_proc m i j = m_proc m i' j' -> (i, j) = (i', j');
  i_cpu : forall i j rest, task_status d i j = Running rest -> on_device m i j = false -> Forall computes rest;
  i_gpu : forall i j rest, task_status d i j = Running rest -> on_device m i j = true -> streams_ok (stream_set d i j) rest;
  i_order : forall i j rest, task_status d i j = Running rest -> exists b, well_ordered b rest /\
             (b = false -> forall s a, ~ In (Work i j a) (queue d s)) }.

Lemma inv_start : inv (start_state L V).
Proof.
  constructor; cbn; try (intros; congruence); try (intros; contradiction).
  intros s q1 i j q2 H. destruct q1; discriminate.
Qed.

Definition may_start_mono (d d' : state) : Prop := forall i j, task_status d i j = Complete _ _ -> task_status d' i j = Complete _ _.
Lemma may_start_keep d d' i : may_start_mono d d' -> may_start d i -> may_start d' i.
Proof. intros H Hm i' oi oi' H1 H2 H3 H4 j' Hj. apply H. eapply Hm; eassumption. Qed.

(** A move of the thread running body (i,j): only the status of (i,j) changes, work is appended to its own stream. *)
Lemma inv_advance d d' i j rest rest' extra :
  inv d -> task_status d i j = Running rest ->
  (forall i' j', task_status d' i' j' = if (i' =? i) && (j' =? j) then Running rest' else task_status d i' j') ->
  (forall s, queue d' s = if s =? m_stream m i j then queue d s ++ map (Work i j) extra else queue d s) ->
  (extra <> [] -> on_device m i j = true) ->
  (forall i' j' l r, task_status d i' j' = Running r -> (i', j') <> (i, j) -> on_device m i' j' = true -> stream_set d i' j' l -> stream_set d' i' j' l) ->
  (on_device m i j = false -> Forall computes rest') ->
  (on_device m i j = true -> streams_ok (stream_set d' i j) rest') ->
  (exists b, well_ordered b rest' /\ (b = false -> forall s a, ~ In (Work i j a) (queue d' s))) ->
  inv d'.
Proof.
  intros [V0 S0 W0 M0 R0 E0 C0 G0 O0] Hst Hs Hq Hx Hh Hc Hg Ho.
  assert (Sij : task_status d' i j = Running rest') by (rewrite Hs, !Nat.eqb_refl; reflexivity).
  assert (Sot : forall i' j', (i', j') <> (i, j) -> task_status d' i' j' = task_status d i' j').
  { intros i' j' Hne. rewrite Hs. destruct (Nat.eqb_spec i' i) as [->|]; destruct (Nat.eqb_spec j' j) as [->|]; cbn; try reflexivity. congruence. }
  assert (K : may_start_mono d d').
  { intros i' j' Hc'. destruct (pair_dec i' j' i j) as [E|E]; [injection E as -> ->; congruence|]. rewrite Sot by exact E. exact Hc'. }
  constructor.
  - intros i' j' Hw. destruct (pair_dec i' j' i j) as [E|E]; [injection E as -> ->; apply V0; congruence|]. apply V0. rewrite <- Sot by exact E. exact Hw.
  - intros i' j' Hw. apply (may_start_keep K). apply (S0 i' j'). destruct (pair_dec i' j' i j) as [E|E]; [injection E as -> ->; congruence|]. rewrite <- Sot by exact E. exact Hw.
  - intros s i' j' a Hin. rewrite Hq in Hin.
    assert (D : In (Work i' j' a) (queue d s) \/ (s = m_stream m i j /\ i' = i /\ j' = j /\ extra <> [])).
    { destruct (Nat.eqb_spec s (m_stream m i j)) as [->|]; [|left; exact Hin]. apply in_app_or in Hin. destruct Hin as [Hin|Hin]; [left; exact Hin|].
      right. apply in_map_iff in Hin. destruct Hin as [b [Eb Hb]]. injection Eb as <- <- <-. split; [reflexivity|]. split; [reflexivity|]. split; [reflexivity|]. intros ->. destruct Hb. }
    destruct D as [D|(-> & -> & -> & D)].
    + destruct (W0 _ _ _ _ D) as (H1 & H2 & H3). split; [exact H1|]. split; [exact H2|]. destruct (pair_dec i' j' i j) as [E|E]; [injection E as -> ->; left; eexists; exact Sij|].
      rewrite Sot by exact E. exact H3.
    + split; [reflexivity|]. split; [apply Hx; exact D|]. left. eexists. exact Sij.
  - intros s q1 i' j' q2 Hsq. rewrite Hq in Hsq.
    assert (D : exists q2', queue d s = q1 ++ Marker _ _ i' j' :: q2' /\ (q2 = q2' \/ q2 = q2' ++ map (Work i j) extra)).
    { destruct (Nat.eqb_spec s (m_stream m i j)) as [->|]; [|exists q2; split; [exact Hsq|left; reflexivity]].
      apply app_eq_app in Hsq. destruct Hsq as [z [[H1 H2]|[H1 H2]]].
      - destruct z as [|y z]; [cbn in H2; destruct extra; discriminate|]. cbn in H2. injection H2 as <- H2. exists z. split; [exact H1|right; exact H2].
      - exfalso. assert (Hin : In (Marker L V i' j') (map (Work i j) extra)) by (rewrite H2; apply in_or_app; right; left; reflexivity).
        apply in_map_iff in Hin. destruct Hin as [b [Eb _]]. discriminate. }
    destruct D as [q2' [D1 D2]]. destruct (M0 _ _ _ _ _ D1) as (H1 & H2 & H3 & H4).
    assert (Ne : (i', j') <> (i, j)) by (intros E; injection E as -> ->; congruence).
    split; [exact H1|]. split; [rewrite Sot by exact Ne; exact H2|]. destruct D2 as [->| ->]; [split; assumption|]. split.
    + intros a Ha. apply in_app_or in Ha. destruct Ha as [Ha|Ha]; [exact (H3 _ Ha)|]. apply in_map_iff in Ha. destruct Ha as [b [Eb _]]. injection Eb as <- <- <-. congruence.
    + intros Ha. apply in_app_or in Ha. destruct Ha as [Ha|Ha]; [exact (H4 Ha)|]. apply in_map_iff in Ha. destruct Ha as [b [Eb _]]. discriminate.
  - intros i' j' Hr. assert (Ne : (i', j') <> (i, j)) by (intros E; injection E as -> ->; congruence). rewrite Sot in Hr by exact Ne.
    rewrite Hq. specialize (R0 _ _ Hr). destruct (_ =? _); [apply in_or_app; left|]; exact R0.
  - intros i1 j1 r1 i2 j2 r2 H1 H2 Hp.
    assert (D : forall i' j' r', task_status d' i' j' = Running r' -> exists r0, task_status d i' j' = Running r0).
    { intros i' j' r' Hr. destruct (pair_dec i' j' i j) as [E|E]; [injection E as -> ->; eexists; exact Hst|]. rewrite Sot in Hr by exact E. eexists; exact Hr. }
    destruct (D _ _ _ H1) as [q1 Q1]. destruct (D _ _ _ H2) as [q2 Q2]. eapply E0; eassumption.
  - intros i' j' r Hr Hd. destruct (pair_dec i' j' i j) as [E|E]; [injection E as -> ->; rewrite Sij in Hr; injection Hr as <-; apply Hc; exact Hd|].
    rewrite Sot in Hr by exact E. eapply C0; eassumption.
  - intros i' j' r Hr Hd. destruct (pair_dec i' j' i j) as [E|E]; [injection E as -> ->; rewrite Sij in Hr; injection Hr as <-; apply Hg; exact Hd|].
    rewrite Sot in Hr by exact E. eapply streams_ok_mono; [|eapply G0; eassumption]. intros l Hl. eapply Hh; eassumption.
  - intros i' j' r Hr. destruct (pair_dec i' j' i j) as [E|E]; [injection E as -> ->; rewrite Sij in Hr; injection Hr as <-; exact Ho|].
    rewrite Sot in Hr by exact E. destruct (O0 _ _ _ Hr) as [b [B1 B2]]. exists b. split; [exact B1|]. intros Eb s a Hin. rewrite Hq in Hin.
    apply (B2 Eb s a). destruct (s =? m_stream m i j); [|exact Hin]. apply in_app_or in Hin. destruct Hin as [Hin|Hin]; [exact Hin|].
    apply in_map_iff in Hin. destruct Hin as [b' [Eb' _]]. injection Eb' as <- <- <-. congruence.
Qed.

Hypothesis Hown : own_slots.
Hypothesis Hmatch : variants_match m.

Lemma device_slot i j sl : library_context bits (m_proc m i j) = Ok sl -> on_device m i j = true /\ sl = slot i j.
Proof.
  intros H. unfold on_device. destruct (proc_kind_of (m_proc m i j)) eqn:E.
  - split; [reflexivity|]. rewrite (slot_index bits _ E) in H. injection H as <-. reflexivity.
  - unfold library_context in H. rewrite E in H. discriminate.
Qed.

Lemma inv_move d x d' : inv d -> move d x d' -> inv d'.
Proof.
  intros I Hm. destruct Hm as [i j t Ht Hw Hst Hf|i j a ss rest Hst|i j rest Hst|i j l rest sl Hst Hsl|i j l rest sl Hst Hsl|i j l ss rest sl Hst Hsl|i j ss rest Hst|i j rest Hst Hq|i j Hst Hd|i j Hst Hd|s i j a q Hq|s i j q Hq].
  - (* start *)
    assert (Sot : forall i' j', (i', j') <> (i, j) -> task_status (set_status d i j (Running (body (m_variant m i j) t))) i' j' = task_status d i' j')
      by (intros; apply status_other; assumption).
    assert (Sij := status_same d i j (Running (body (m_variant m i j) t))).
    set (d' := set_status d i j (Running (body (m_variant m i j) t))) in *.
    assert (Hq : forall s, queue d' s = queue d s) by reflexivity.
    assert (Hh : forall sl l, handle_stream d' sl l = handle_stream d sl l) by reflexivity.
    assert (K : may_start_mono d d').
    { intros i' j' Hc'. destruct (pair_dec i' j' i j) as [E|E]; [injection E as -> ->; congruence|]. rewrite Sot by exact E. exact Hc'. }
    destruct I as [V0 S0 W0 M0 R0 E0 C0 G0 O0]. constructor.
    + intros i' j' H. destruct (pair_dec i' j' i j) as [E|E]; [injection E as -> ->; eexists; exact Ht|]. rewrite Sot in H by exact E. apply V0. exact H.
    + intros i' j' H. apply (may_start_keep K). destruct (pair_dec i' j' i j) as [E|E]; [injection E as -> ->; exact Hst|]. rewrite Sot in H by exact E. eapply S0. exact H.
    + intros s i' j' a Hin. rewrite Hq in Hin. destruct (W0 _ _ _ _ Hin) as (H1 & H2 & H3). split; [exact H1|]. split; [exact H2|].
      destruct (pair_dec i' j' i j) as [E|E]; [injection E as -> ->; left; eexists; exact Sij|]. rewrite Sot by exact E. exact H3.
    + intros s q1 i' j' q2 H. rewrite Hq in H. destruct (M0 _ _ _ _ _ H) as (H1 & H2 & H3). split; [exact H1|]. split; [|exact H3].
      rewrite Sot; [exact H2|]. intros E; injection E as -> ->; congruence.
    + intros i' j' Hr. assert (Ne : (i', j') <> (i, j)) by (intros E; injection E as -> ->; congruence). rewrite Sot in Hr by exact Ne. rewrite Hq. apply R0. exact Hr.
    + intros i1 j1 r1 i2 j2 r2 H1 H2 Hp. destruct (pair_dec i1 j1 i j) as [E1|E1]; destruct (pair_dec i2 j2 i j) as [E2|E2]; try congruence.
      * injection E1 as -> ->. rewrite Sot in H2 by exact E2. destruct (Hf _ _ _ H2). congruence.
      * injection E2 as -> ->. rewrite Sot in H1 by exact E1. destruct (Hf _ _ _ H1). congruence.
      * rewrite Sot in H1 by exact E1. rewrite Sot in H2 by exact E2. eapply E0; eassumption.
    + intros i' j' r Hr Hd. destruct (pair_dec i' j' i j) as [E|E].
      * injection E as -> ->. rewrite Sij in Hr. injection Hr as <-. assert (Ev : m_variant m i j = CpuBody).
        { apply Hmatch. unfold on_device in Hd. destruct (proc_kind_of (m_proc m i j)); [discriminate|reflexivity]. }
        rewrite Ev. repeat constructor.
      * rewrite Sot in Hr by exact E. eapply C0; eassumption.
    + intros i' j' r Hr Hd. destruct (pair_dec i' j' i j) as [E|E].
      * injection E as -> ->. rewrite Sij in Hr. injection Hr as <-. apply body_streams.
      * rewrite Sot in Hr by exact E. eapply streams_ok_mono; [|eapply G0; eassumption]. intros l Hl. exact Hl.
    + intros i' j' r Hr. destruct (pair_dec i' j' i j) as [E|E].
      * injection E as -> ->. rewrite Sij in Hr. injection Hr as <-. exists false. split; [apply body_ordered|]. intros _ s a Hin. rewrite Hq in Hin.
        destruct (W0 _ _ _ _ Hin) as (_ & _ & [[r H]|H]); congruence.
      * rewrite Sot in Hr by exact E. destruct (O0 _ _ _ Hr) as [b [B1 B2]]. exists b. split; [exact B1|]. intros Eb s. rewrite Hq. apply B2. exact Eb.
  - (* compute *)
    refine (@inv_advance d _ i j _ (Compute ss :: rest) [] I Hst _ _ _ _ _ _ _); cbn.
    + reflexivity.
    + intros s. rewrite app_nil_r. destruct (_ =? _); reflexivity.
    + congruence.
    + intros i' j' l r _ _ _ H. exact H.
    + intros Hd. pose proof (i_cpu I _ _ Hst Hd) as H. inversion H; subst. constructor; assumption.
    + intros Hd. exact (i_gpu I _ _ Hst Hd).
    + destruct (i_order I _ _ Hst) as [b [B1 B2]]. destruct B1 as [B1 B1']. exists b. split; [|exact B2]. split; [|exact B1'].
      intros ->. discriminate (B1 eq_refl).
  - (* computed *)
    refine (@inv_advance d _ i j _ rest [] I Hst _ _ _ _ _ _ _); cbn.
    + reflexivity.
    + intros s. rewrite app_nil_r. destruct (_ =? _); reflexivity.
    + congruence.
    + intros i' j' l r _ _ _ H. exact H.
    + intros Hd. pose proof (i_cpu I _ _ Hst Hd) as H. inversion H; subst. assumption.
    + intros Hd. exact (i_gpu I _ _ Hst Hd).
    + destruct (i_order I _ _ Hst) as [b [B1 B2]]. destruct B1 as [B1 B1']. exists b. split; assumption.
  - (* handle *)
    destruct (device_slot _ _ Hsl) as [Hd ->].
    refine (@inv_advance d _ i j _ rest [] I Hst _ _ _ _ _ _ _); cbn.
    + reflexivity.
    + intros s. rewrite app_nil_r. destruct (_ =? _); reflexivity.
    + congruence.
    + intros i' j' l' r _ _ _ H. exact H.
    + congruence.
    + intros _. exact (i_gpu I _ _ Hst Hd).
    + exact (i_order I _ _ Hst).
  - (* set stream *)
    destruct (device_slot _ _ Hsl) as [Hd ->].
    refine (@inv_advance d _ i j _ rest [] I Hst _ _ _ _ _ _ _); cbn.
    + reflexivity.
    + intros s. rewrite app_nil_r. destruct (_ =? _); reflexivity.
    + congruence.
    + intros i' j' l' r Hr Hne Hd' H. unfold stream_set. cbn. destruct (Z.eqb_spec (slot i' j') (slot i j)) as [Es|]; [|exact H].
      exfalso. apply Hne. refine (i_exclusive I _ _ _ _ Hr Hst _). apply Hown; [exact Hd'|exact Hd|exact Es].
    + congruence.
    + intros _. pose proof (i_gpu I _ _ Hst Hd) as H. cbn in H. eapply streams_ok_mono; [|exact H].
      intros l' [->|Hl]; unfold stream_set in *; cbn; rewrite Z.eqb_refl; cbn; [destruct l; reflexivity|]. destruct l', l; try reflexivity; exact Hl.
    + exact (i_order I _ _ Hst).
  - (* library call *)
    destruct (device_slot _ _ Hsl) as [Hd ->]. pose proof (i_gpu I _ _ Hst Hd) as Hg. cbn in Hg. destruct Hg as [Hl Hg]. unfold stream_set in Hl. rewrite Hl.
    refine (@inv_advance d _ i j _ rest ss I Hst _ _ _ _ _ _ _); cbn.
    + reflexivity.
    + intros s. destruct (Nat.eqb_spec s (m_stream m i j)) as [->|]; reflexivity.
    + intros _. exact Hd.
    + intros i' j' l' r _ _ _ H. exact H.
    + congruence.
    + intros _. exact Hg.
    + destruct (i_order I _ _ Hst) as [b [B1 B2]]. exists true. split; [exact B1|discriminate].
  - (* kernel *)
    assert (Hd : on_device m i j = true).
    { destruct (on_device m i j) eqn:E; [reflexivity|]. pose proof (i_cpu I _ _ Hst E) as H. inversion H; contradiction. }
    refine (@inv_advance d _ i j _ rest ss I Hst _ _ _ _ _ _ _); cbn.
    + reflexivity.
    + intros s. destruct (Nat.eqb_spec s (m_stream m i j)) as [->|]; reflexivity.
    + intros _. exact Hd.
    + intros i' j' l' r _ _ _ H. exact H.
    + congruence.
    + intros _. exact (i_gpu I _ _ Hst Hd).
    + destruct (i_order I _ _ Hst) as [b [B1 B2]]. exists true. split; [exact B1|discriminate].
  - (* sync *)
    assert (Hd : on_device m i j = true).
    { destruct (on_device m i j) eqn:E; [reflexivity|]. pose proof (i_cpu I _ _ Hst E) as H. inversion H; contradiction. }
    refine (@inv_advance d _ i j _ rest [] I Hst _ _ _ _ _ _ _); cbn.
    + reflexivity.
    + intros s. rewrite app_nil_r. destruct (_ =? _); reflexivity.
    + congruence.
    + intros i' j' l' r _ _ _ H. exact H.
    + congruence.
    + intros _. exact (i_gpu I _ _ Hst Hd).
    + destruct (i_order I _ _ Hst) as [b [B1 B2]]. exists false. split; [exact B1|]. intros _ s a Hin. destruct (i_work I _ _ _ _ Hin) as (-> & _). rewrite Hq in Hin. exact Hin.
  - (* return on a CPU *)
    assert (Sot := fun i' j' => @status_other d i j (Complete L V) i' j'). assert (Sij := status_same d i j (Complete L V)).
    set (d' := set_status d i j (Complete L V)) in *.
    assert (Hq : forall s, queue d' s = queue d s) by reflexivity.
    assert (K : may_start_mono d d').
    { intros i' j' Hc'. destruct (pair_dec i' j' i j) as [E|E]; [injection E as -> ->; congruence|]. rewrite Sot by exact E. exact Hc'. }
    assert (Run : forall i' j' r, task_status d' i' j' = Running r -> task_status d i' j' = Running r /\ (i', j') <> (i, j)).
    { intros i' j' r Hr. destruct (pair_dec i' j' i j) as [E|E]; [injection E as -> ->; congruence|]. rewrite Sot in Hr by exact E. split; assumption. }
    destruct I as [V0 S0 W0 M0 R0 E0 C0 G0 O0]. constructor.
    + intros i' j' H. apply V0. destruct (pair_dec i' j' i j) as [E|E]; [injection E as -> ->; congruence|]. rewrite <- Sot by exact E. exact H.
    + intros i' j' H. apply (may_start_keep K). apply (S0 i' j'). destruct (pair_dec i' j' i j) as [E|E]; [injection E as -> ->; congruence|]. rewrite <- Sot by exact E. exact H.
    + intros s i' j' a Hin. rewrite Hq in Hin. destruct (W0 _ _ _ _ Hin) as (H1 & H2 & H3). split; [exact H1|]. split; [exact H2|].
      rewrite Sot; [exact H3|]. intros E; injection E as -> ->. congruence.
    + intros s q1 i' j' q2 H. rewrite Hq in H. destruct (M0 _ _ _ _ _ H) as (H1 & H2 & H3). split; [exact H1|]. split; [|exact H3].
      rewrite Sot; [exact H2|]. intros E; injection E as -> ->; congruence.
    + intros i' j' Hr. assert (Ne : (i', j') <> (i, j)) by (intros E; injection E as -> ->; congruence). rewrite Sot in Hr by exact Ne. rewrite Hq. apply R0. exact Hr.
    + intros i1 j1 r1 i2 j2 r2 H1 H2 Hp. destruct (Run _ _ _ H1) as [H1' _]. destruct (Run _ _ _ H2) as [H2' _]. eapply E0; eassumption.
    + intros i' j' r Hr. destruct (Run _ _ _ Hr) as [Hr' _]. eapply C0; exact Hr'.
    + intros i' j' r Hr. destruct (Run _ _ _ Hr) as [Hr' _]. eapply G0; exact Hr'.
    + intros i' j' r Hr. destruct (Run _ _ _ Hr) as [Hr' _]. exact (O0 _ _ _ Hr').
  - (* return on a GPU *)
    set (e := enqueue d (m_stream m i j) [Marker L V i j]).
    assert (Sot := fun i' j' => @status_other e i j (Returned L V) i' j'). assert (Sij := status_same e i j (Returned L V)).
    set (d' := set_status e i j (Returned L V)) in *. change (task_status e) with (task_status d) in Sot.
    assert (Hq : forall s, queue d' s = if s =? m_stream m i j then queue d s ++ [Marker L V i j] else queue d s).
    { intros s. cbn. destruct (Nat.eqb_spec s (m_stream m i j)) as [->|]; reflexivity. }
    assert (K : may_start_mono d d').
    { intros i' j' Hc'. destruct (pair_dec i' j' i j) as [E|E]; [injection E as -> ->; congruence|]. rewrite Sot by exact E. exact Hc'. }
    assert (Run : forall i' j' r, task_status d' i' j' = Running r -> task_status d i' j' = Running r /\ (i', j') <> (i, j)).
    { intros i' j' r Hr. destruct (pair_dec i' j' i j) as [E|E]; [injection E as -> ->; congruence|]. rewrite Sot in Hr by exact E. split; assumption. }
    assert (Qw : forall s i' j' a, In (Work i' j' a) (queue d' s) -> In (Work i' j' a) (queue d s)).
    { intros s i' j' a Hin. rewrite Hq in Hin. destruct (s =? _); [|exact Hin]. apply in_app_or in Hin. destruct Hin as [Hin|[Hin|[]]]; [exact Hin|discriminate]. }
    destruct I as [V0 S0 W0 M0 R0 E0 C0 G0 O0]. constructor.
    + intros i' j' H. apply V0. destruct (pair_dec i' j' i j) as [E|E]; [injection E as -> ->; congruence|]. rewrite <- Sot by exact E. exact H.
    + intros i' j' H. apply (may_start_keep K). apply (S0 i' j'). destruct (pair_dec i' j' i j) as [E|E]; [injection E as -> ->; congruence|]. rewrite <- Sot by exact E. exact H.
    + intros s i' j' a Hin. destruct (W0 _ _ _ _ (Qw _ _ _ _ Hin)) as (H1 & H2 & H3). split; [exact H1|]. split; [exact H2|].
      destruct (pair_dec i' j' i j) as [E|E]; [injection E as -> ->; right; exact Sij|]. rewrite Sot by exact E. exact H3.
    + intros s q1 i' j' q2 H. rewrite Hq in H.
      assert (D : (exists q2', queue d s = q1 ++ Marker _ _ i' j' :: q2' /\ (q2 = q2' \/ q2 = q2' ++ [Marker _ _ i j])) \/ (s = m_stream m i j /\ i' = i /\ j' = j /\ q2 = [])).
      { destruct (Nat.eqb_spec s (m_stream m i j)) as [->|]; [|left; exists q2; split; [exact H|left; reflexivity]].
        apply app_eq_app in H. destruct H as [z [[H1 H2]|[H1 H2]]].
        - destruct z as [|y z]; cbn in H2.
          + injection H2 as -> -> <-. right. split; [reflexivity|]. split; [reflexivity|]. split; reflexivity.
          + injection H2 as <- H2. left. exists z. split; [exact H1|right; exact H2].
        - destruct z as [|y z]; cbn in H2; [injection H2 as <- <- <-; right; split; [reflexivity|]; split; [reflexivity|]; split; reflexivity|].
          injection H2 as <- H2. destruct z; discriminate. }
      destruct D as [[q2' [D1 D2]]|(-> & -> & -> & ->)].
      * destruct (M0 _ _ _ _ _ D1) as (H1 & H2 & H3 & H4). assert (Ne : (i', j') <> (i, j)) by (intros E; injection E as -> ->; congruence).
        split; [exact H1|]. split; [rewrite Sot by exact Ne; exact H2|]. destruct D2 as [->| ->]; [split; assumption|]. split.
        -- intros a Ha. apply in_app_or in Ha. destruct Ha as [Ha|[Ha|[]]]; [exact (H3 _ Ha)|discriminate].
        -- intros Ha. apply in_app_or in Ha. destruct Ha as [Ha|[Ha|[]]]; [exact (H4 Ha)|]. injection Ha as -> ->. congruence.
      * split; [reflexivity|]. split; [exact Sij|]. split; [intros a []|intros []].
    + intros i' j' Hr. rewrite Hq. destruct (pair_dec i' j' i j) as [E|E].
      * injection E as -> ->. rewrite Nat.eqb_refl. apply in_or_app. right. left. reflexivity.
      * rewrite Sot in Hr by exact E. specialize (R0 _ _ Hr). destruct (_ =? _); [apply in_or_app; left|]; exact R0.
    + intros i1 j1 r1 i2 j2 r2 H1 H2 Hp. destruct (Run _ _ _ H1) as [H1' _]. destruct (Run _ _ _ H2) as [H2' _]. eapply E0; eassumption.
    + intros i' j' r Hr. destruct (Run _ _ _ Hr) as [Hr' _]. eapply C0; exact Hr'.
    + intros i' j' r Hr. destruct (Run _ _ _ Hr) as [Hr' _]. eapply G0; exact Hr'.
    + intros i' j' r Hr. destruct (Run _ _ _ Hr) as [Hr' _]. destruct (O0 _ _ _ Hr') as [b [B1 B2]]. exists b. split; [exact B1|]. intros Eb s a Hin. exact (B2 Eb s a (Qw _ _ _ _ Hin)).
  - (* the device performs an update *)
    assert (Qin : forall s' x, In x (queue (set_queue d s q) s') -> In x (queue d s')).
    { intros s' x Hin. cbn in Hin. destruct (Nat.eqb_spec s' s) as [->|]; [|exact Hin]. rewrite Hq. right. exact Hin. }
    destruct I as [V0 S0 W0 M0 R0 E0 C0 G0 O0]. constructor; cbn [task_status set_queue].
    + exact V0.
    + exact S0.
    + intros s' i' j' b Hin. exact (W0 _ _ _ _ (Qin _ _ Hin)).
    + intros s' q1 i' j' q2 H. cbn in H. destruct (Nat.eqb_spec s' s) as [->|].
      * refine (M0 s (Work i j a :: q1) i' j' q2 _). rewrite Hq, H. reflexivity.
      * exact (M0 _ _ _ _ _ H).
    + intros i' j' Hr. specialize (R0 _ _ Hr). cbn. destruct (Nat.eqb_spec (m_stream m i' j') s) as [Es|]; [|exact R0]. rewrite Es, Hq in R0. destruct R0 as [R0|R0]; [discriminate|exact R0].
    + exact E0.
    + exact C0.
    + exact G0.
    + intros i' j' r Hr. destruct (O0 _ _ _ Hr) as [b [B1 B2]]. exists b. split; [exact B1|]. intros Eb s' a' Hin. exact (B2 Eb s' a' (Qin _ _ Hin)).
  - (* a task completes *)
    destruct (i_marker I s [] i j q Hq) as (Es & Hr0 & Nw & Nm).
    set (e := set_queue d s q).
    assert (Sot := fun i' j' => @status_other e i j (Complete L V) i' j'). assert (Sij := status_same e i j (Complete L V)).
    set (d' := set_status e i j (Complete L V)) in *. change (task_status e) with (task_status d) in Sot.
    assert (Qin : forall s' x, In x (queue d' s') -> In x (queue d s') /\ (s' = s -> In x q)).
    { intros s' x Hin. cbn in Hin. destruct (Nat.eqb_spec s' s) as [->|Hne]; [|split; [exact Hin|congruence]]. split; [rewrite Hq; right; exact Hin|intros _; exact Hin]. }
    assert (K : may_start_mono d d').
    { intros i' j' Hc'. destruct (pair_dec i' j' i j) as [E|E]; [injection E as -> ->; congruence|]. rewrite Sot by exact E. exact Hc'. }
    assert (Run : forall i' j' r, task_status d' i' j' = Running r -> task_status d i' j' = Running r /\ (i', j') <> (i, j)).
    { intros i' j' r Hr. destruct (pair_dec i' j' i j) as [E|E]; [injection E as -> ->; congruence|]. rewrite Sot in Hr by exact E. split; assumption. }
    destruct I as [V0 S0 W0 M0 R0 E0 C0 G0 O0]. constructor.
    + intros i' j' H. apply V0. destruct (pair_dec i' j' i j) as [E|E]; [injection E as -> ->; congruence|]. rewrite <- Sot by exact E. exact H.
    + intros i' j' H. apply (may_start_keep K). apply (S0 i' j'). destruct (pair_dec i' j' i j) as [E|E]; [injection E as -> ->; congruence|]. rewrite <- Sot by exact E. exact H.
    + intros s' i' j' a Hin. destruct (Qin _ _ Hin) as [Hin1 Hin2]. destruct (W0 _ _ _ _ Hin1) as (H1 & H2 & H3). split; [exact H1|]. split; [exact H2|].
      rewrite Sot; [exact H3|]. intros E; injection E as -> ->. apply (Nw a). apply Hin2. congruence.
    + intros s' q1 i' j' q2 H. cbn in H.
      assert (D : exists q1', queue d s' = q1' ++ Marker _ _ i' j' :: q2 /\ (s' = s -> In (Marker _ _ i' j') q)).
      { destruct (Nat.eqb_spec s' s) as [->|Hne]; [exists (Marker _ _ i j :: q1); split; [rewrite Hq, H; reflexivity|intros _; rewrite H; apply in_or_app; right; left; reflexivity]|exists q1; split; [exact H|congruence]]. }
      destruct D as [q1' [D1 D2]]. destruct (M0 _ _ _ _ _ D1) as (H1 & H2 & H3). split; [exact H1|]. split; [|exact H3].
      rewrite Sot; [exact H2|]. intros E; injection E as -> ->. apply Nm. apply D2. congruence.
    + intros i' j' Hr. assert (Ne : (i', j') <> (i, j)) by (intros E; injection E as -> ->; congruence). rewrite Sot in Hr by exact Ne. specialize (R0 _ _ Hr).
      cbn. destruct (Nat.eqb_spec (m_stream m i' j') s) as [Es'|]; [|exact R0]. rewrite Es', Hq in R0. destruct R0 as [R0|R0]; [congruence|exact R0].
    + intros i1 j1 r1 i2 j2 r2 H1 H2 Hp. destruct (Run _ _ _ H1) as [H1' _]. destruct (Run _ _ _ H2) as [H2' _]. eapply E0; eassumption.
    + intros i' j' r Hr. destruct (Run _ _ _ Hr) as [Hr' _]. eapply C0; exact Hr'.
    + intros i' j' r Hr. destruct (Run _ _ _ Hr) as [Hr' _]. eapply G0; exact Hr'.
    + intros i' j' r Hr. destruct (Run _ _ _ Hr) as [Hr' _]. destruct (O0 _ _ _ Hr') as [b [B1 B2]]. exists b. split; [exact B1|]. intros Eb s' a Hin. exact (B2 Eb s' a (proj1 (Qin _ _ Hin))).
Qed.
Lemma inv_moves n tr d : moves n tr d -> inv d.
Proof. induction 1 as [|n tr d x d' H IH Hm]; [apply inv_start|]. eapply inv_move; eassumption. Qed.

(** ** simulation *)
Definition pend (d : state) (i j : nat) : list step :=
  match task_status d i j with
  | Waiting _ _ => match task_of i j with Some t => t | None => [] end
  | Running rest => queued (queue d (m_stream m i j)) i j ++ steps_of rest
  | Returned _ _ => queued (queue d (m_stream m i j)) i j
  | Complete _ _ => []
  end.
Definition ntasks (i : nat) : nat := match nth_error ops i with Some o => length (o_tasks o) | None => 0 end.
Definition remaining (f : nat -> nat -> list step) : list (list (list step)) :=
  map (fun i => map (f i) (seq 0 (ntasks i))) (seq 0 (length ops)).
Lemma task_range i j t : task_of i j = Some t -> i < length ops /\ j < ntasks i.
Proof.
  unfold GpuStreams.task_of, ntasks. destruct (nth_error ops i) as [o|] eqn:E; [|discriminate]. intros H. split; apply nth_error_Some; congruence.
Qed.
Lemma remaining_ext f g : (forall i j, f i j = g i j) -> remaining f = remaining g.
Proof. intros H. unfold remaining. apply map_ext. intros i. apply map_ext. apply H. Qed.
Lemma seq_split n i : i < n -> seq 0 n = seq 0 i ++ i :: seq (S i) (n - S i).
Proof. intros H. replace n with (i + S (n - S i)) at 1 by lia. rewrite seq_app. reflexivity. Qed.
Lemma remaining_split f i j : i < length ops -> j < ntasks i -> exists pre ts1 ts2 post,
  length pre = i /\ (forall i' ts, nth_error pre i' = Some ts -> ts = map (f i') (seq 0 (ntasks i'))) /\
  forall g, (forall i' j', (i', j') <> (i, j) -> g i' j' = f i' j') -> remaining g = pre ++ (ts1 ++ g i j :: ts2) :: post.
Proof.
  intros Hi Hj.
  exists (map (fun i' => map (f i') (seq 0 (ntasks i'))) (seq 0 i)), (map (f i) (seq 0 j)), (map (f i) (seq (S j) (ntasks i - S j))),
    (map (fun i' => map (f i') (seq 0 (ntasks i'))) (seq (S i) (length ops - S i))).
  split; [rewrite map_length, seq_length; reflexivity|]. split.
  - intros i' ts H. assert (Hl : i' < i) by (assert (Hs : nth_error (map (fun i' => map (f i') (seq 0 (ntasks i'))) (seq 0 i)) i' <> None) by congruence;
      apply nth_error_Some in Hs; rewrite map_length, seq_length in Hs; exact Hs).
    rewrite nth_error_map_some in H. rewrite (@nth_error_nth' nat _ i' 0) in H by (rewrite seq_length; exact Hl). rewrite seq_nth in H by exact Hl. cbn in H. injection H as <-. reflexivity.
  - intros g Hg. unfold remaining. rewrite (seq_split Hi), map_app. cbn [map]. rewrite (seq_split Hj), map_app. cbn [map].
    assert (E : forall i', i' <> i -> map (g i') (seq 0 (ntasks i')) = map (f i') (seq 0 (ntasks i'))).
    { intros i' Hne. apply map_ext. intros j'. apply Hg. congruence. }
    f_equal; [apply map_ext_in; intros i' Hin; apply in_seq in Hin; apply E; lia|]. f_equal; [|apply map_ext_in; intros i' Hin; apply in_seq in Hin; apply E; lia].
    f_equal; [apply map_ext_in; intros j' Hin; apply in_seq in Hin; apply Hg; intros X; injection X; lia|]. f_equal.
    apply map_ext_in; intros j' Hin; apply in_seq in Hin; apply Hg; intros X; injection X; lia.
Qed.
Lemma partial_run_snoc (R : list (list (list step))) tr pre ts1 a t ts2 post :
  partial_run ops R tr (pre ++ (ts1 ++ (a :: t) :: ts2) :: post) ->
  (forall i oi oj tsi, i < length pre -> nth_error ops i = Some oi -> nth_error ops (length pre) = Some oj ->
        conflict oi oj -> nth_error pre i = Some tsi -> finished tsi) ->
  partial_run ops R (tr ++ [(length pre, a)]) (pre ++ (ts1 ++ t :: ts2) :: post).
Proof. intros H Hc. eapply partial_run_trans; [exact H|]. apply pr_step; [exact Hc|constructor]. Qed.

Lemma pend_step d d' i j a : inv d -> task_status d i j <> Waiting _ _ -> pend d i j = a :: pend d' i j ->
  (forall i' j', (i', j') <> (i, j) -> pend d' i' j' = pend d i' j') ->
  forall R tr, partial_run ops R tr (remaining (pend d)) -> partial_run ops R (tr ++ [(i, a)]) (remaining (pend d')).
Proof.
  intros I Hw Hp Ho R tr H. destruct (i_valid I _ _ Hw) as [t Ht]. destruct (task_range _ _ Ht) as [Hi Hj].
  destruct (@remaining_split (pend d) i j Hi Hj) as (pre & ts1 & ts2 & post & Hl & Hpre & Hs).
  rewrite (Hs (pend d)) in H by reflexivity. rewrite (Hs (pend d') Ho). rewrite Hp in H. rewrite <- Hl at 1. apply partial_run_snoc; [exact H|].
  intros i' oi oj tsi H1 H2 H3 H4 H5. rewrite Hl in H1, H3. rewrite (Hpre _ _ H5). apply Forall_forall. intros x Hx. apply in_map_iff in Hx.
  destruct Hx as [j' [<- Hin]]. apply in_seq in Hin. unfold pend.
  rewrite (@i_started d I i j Hw i' _ _ H1 H2 H3 H4 j'); [reflexivity|]. unfold ntasks in Hin. rewrite H2 in Hin. lia.
Qed.

Lemma pend_move d x d' : inv d -> move d x d' ->
  match x with
  | None => forall i j, pend d' i j = pend d i j
  | Some (i, a) => exists j, task_status d i j <> Waiting _ _ /\ pend d i j = a :: pend d' i j /\ forall i' j', (i', j') <> (i, j) -> pend d' i' j' = pend d i' j'
  end.
Proof.
  intros I Hm.
  assert (Adv : forall i j e y, (i, j) = (i, j) -> (forall i' j', (i', j') <> (i, j) -> task_status e i' j' = task_status d i' j') ->
     (forall i' j', (i', j') <> (i, j) -> queued (queue e (m_stream m i' j')) i' j' = queued (queue d (m_stream m i' j')) i' j') ->
     forall i' j', (i', j') <> (i, j) -> pend (set_status e i j y) i' j' = pend d i' j').
  { intros i j e y _ H1 H2 i' j' Hne. unfold pend. rewrite status_other by exact Hne. rewrite H1 by exact Hne.
    change (queue (set_status e i j y)) with (queue e). rewrite H2 by exact Hne. reflexivity. }
  assert (Both : forall i j e y, (forall i' j', (i', j') <> (i, j) -> task_status e i' j' = task_status d i' j') ->
     (forall i' j', (i', j') <> (i, j) -> queued (queue e (m_stream m i' j')) i' j' = queued (queue d (m_stream m i' j')) i' j') ->
     pend (set_status e i j y) i j = pend d i j ->
     forall i' j', pend (set_status e i j y) i' j' = pend d i' j').
  { intros i j e y H1 H2 H3 i' j'. destruct (pair_dec i' j' i j) as [E|E]; [injection E as -> ->; exact H3|]. apply Adv; auto. }
  assert (Enq : forall i j ss s, forall i' j', (i', j') <> (i, j) -> queued (queue (enqueue d s (map (Work i j) ss)) (m_stream m i' j')) i' j' = queued (queue d (m_stream m i' j')) i' j').
  { intros i j ss s i' j' Hne. cbn [queue enqueue set_queue]. destruct (Nat.eqb_spec (m_stream m i' j') s) as [->|]; [|reflexivity]. rewrite queued_app, queued_other by congruence. apply app_nil_r. }
  destruct Hm as [i j t Ht Hw Hst Hf|i j a ss rest Hst|i j rest Hst|i j l rest sl Hst Hsl|i j l rest sl Hst Hsl|i j l ss rest sl Hst Hsl|i j ss rest Hst|i j rest Hst Hq|i j Hst Hd|i j Hst Hd|s i j a q Hq|s i j q Hq].
  - apply Both; try reflexivity. unfold pend. rewrite status_same, Hw, Ht, body_steps. cbn [queue set_status].
    rewrite queued_none; [reflexivity|]. intros a Ha. destruct (i_work I _ _ _ _ Ha) as (_ & _ & [[r E]|E]); congruence.
  - exists j. split; [congruence|]. split; [|apply Adv; reflexivity]. unfold pend. rewrite status_same, Hst. cbn [queue set_status steps_of app].
    destruct (i_order I _ _ Hst) as [b [[B1 _] B2]]. destruct b; [discriminate (B1 eq_refl)|]. rewrite queued_none; [reflexivity|]. apply (B2 eq_refl).
  - apply Both; try reflexivity. unfold pend. rewrite status_same, Hst. reflexivity.
  - apply Both; try reflexivity. unfold pend. rewrite status_same, Hst. reflexivity.
  - apply Both; try reflexivity. unfold pend. rewrite status_same, Hst. reflexivity.
  - destruct (device_slot _ _ Hsl) as [Hd ->]. pose proof (i_gpu I _ _ Hst Hd) as [Hl _]. unfold stream_set in Hl. rewrite Hl.
    apply Both; [reflexivity|apply Enq|]. unfold pend. rewrite status_same, Hst. cbn [queue set_status enqueue set_queue steps_of]. rewrite Nat.eqb_refl, queued_app, queued_work, app_assoc. reflexivity.
  - apply Both; [reflexivity|apply Enq|]. unfold pend. rewrite status_same, Hst. cbn [queue set_status enqueue set_queue steps_of]. rewrite Nat.eqb_refl, queued_app, queued_work, app_assoc. reflexivity.
  - apply Both; try reflexivity. unfold pend. rewrite status_same, Hst. reflexivity.
  - apply Both; try reflexivity. unfold pend. rewrite status_same, Hst. cbn [steps_of]. rewrite app_nil_r. rewrite queued_none; [reflexivity|].
    intros a Ha. destruct (i_work I _ _ _ _ Ha) as (_ & E & _). congruence.
  - assert (Q : forall s i' j', queued (queue (enqueue d s [Marker L V i j]) (m_stream m i' j')) i' j' = queued (queue d (m_stream m i' j')) i' j').
    { intros s i' j'. cbn [queue enqueue set_queue]. destruct (Nat.eqb_spec (m_stream m i' j') s) as [->|]; [|reflexivity]. rewrite queued_app. apply app_nil_r. }
    apply Both; [reflexivity|intros; apply Q|]. unfold pend. rewrite status_same, Hst. change (queue (set_status (enqueue d (m_stream m i j) [Marker L V i j]) i j (Returned L V))) with (queue (enqueue d (m_stream m i j) [Marker L V i j])).
    rewrite Q. cbn [steps_of]. rewrite app_nil_r. reflexivity.
  - destruct (i_work I s i j a) as (-> & Hd & Hs); [rewrite Hq; left; reflexivity|]. exists j. split; [destruct Hs as [[r E]|E]; congruence|].
    assert (E1 : queued (queue d (m_stream m i j)) i j = a :: queued q i j).
    { rewrite Hq. change (Work i j a :: q) with ([Work i j a] ++ q). rewrite queued_app. unfold queued at 1. cbn. rewrite !Nat.eqb_refl. reflexivity. }
    split.
    + unfold pend. change (task_status (set_queue d (m_stream m i j) q)) with (task_status d). rewrite queue_same. rewrite E1. destruct Hs as [[r E]|E]; rewrite E; reflexivity.
    + intros i' j' Hne. unfold pend. change (task_status (set_queue d (m_stream m i j) q)) with (task_status d).
      assert (E2 : queued (queue (set_queue d (m_stream m i j) q) (m_stream m i' j')) i' j' = queued (queue d (m_stream m i' j')) i' j').
      { cbn [queue enqueue set_queue]. destruct (Nat.eqb_spec (m_stream m i' j') (m_stream m i j)) as [->|]; [|reflexivity]. rewrite Hq. change (Work i j a :: q) with (map (Work i j) [a] ++ q).
        rewrite queued_app, queued_other by congruence. reflexivity. }
      rewrite E2. reflexivity.
  - destruct (i_marker I s [] i j q Hq) as (Es & Hr & Nw & Nm).
    assert (Q : forall i' j', queued (queue (set_queue d s q) (m_stream m i' j')) i' j' = queued (queue d (m_stream m i' j')) i' j').
    { intros i' j'. cbn [queue enqueue set_queue]. destruct (Nat.eqb_spec (m_stream m i' j') s) as [->|]; [|reflexivity]. rewrite Hq. reflexivity. }
    apply Both; [reflexivity|intros; apply Q|]. unfold pend. rewrite status_same, Hr. rewrite <- Es, Hq. symmetry. change (Marker L V i j :: q) with ([Marker L V i j] ++ q).
    rewrite queued_app. change (queued [Marker L V i j] i j) with (@nil step). apply queued_none. exact Nw.
Qed.

Lemma remaining_start : remaining (pend (start_state L V)) = map (@o_tasks L V) ops.
Proof.
  unfold remaining. apply nth_ext with (d := []) (d' := []); [rewrite !map_length, seq_length; reflexivity|].
  intros i Hi. rewrite map_length, seq_length in Hi. destruct (nth_error ops i) as [o|] eqn:Eo; [|apply nth_error_None in Eo; lia].
  rewrite (nth_indep _ _ ((fun i => map (pend (start_state L V) i) (seq 0 (ntasks i))) 0)) by (rewrite map_length, seq_length; exact Hi).
  rewrite (map_nth (fun i => map (pend (start_state L V) i) (seq 0 (ntasks i)))). rewrite seq_nth by exact Hi. cbn [Nat.add].
  rewrite (nth_error_nth (map (@o_tasks L V) ops) i [] (x := o_tasks o)) by (rewrite nth_error_map_some, Eo; reflexivity).
  unfold ntasks. rewrite Eo. apply nth_ext with (d := []) (d' := []); [rewrite map_length, seq_length; reflexivity|].
  intros j Hj. rewrite map_length, seq_length in Hj. rewrite (nth_indep _ _ (pend (start_state L V) i 0)) by (rewrite map_length, seq_length; exact Hj).
  rewrite map_nth, seq_nth by exact Hj. cbn [Nat.add]. unfold pend. cbn [task_status start_state]. unfold GpuStreams.task_of. rewrite Eo.
  destruct (nth_error (o_tasks o) j) as [t|] eqn:Et; [|apply nth_error_None in Et; lia]. symmetry. apply nth_error_nth. exact Et.
Qed.

Theorem moves_partial_run n tr d : moves n tr d -> partial_run ops (map (@o_tasks L V) ops) tr (remaining (pend d)).
Proof.
  induction 1 as [|n tr d x d' H IH Hm]; [rewrite remaining_start; constructor|].
  pose proof (inv_moves H) as I. pose proof (pend_move I Hm) as P. destruct x as [[i a]|]; cbn [performed].
  - destruct P as (j & P1 & P2 & P3). exact (@pend_step d d' i j a I P1 P2 P3 _ _ IH).
  - rewrite app_nil_r. rewrite (@remaining_ext (pend d') (pend d) P). exact IH.
Qed.
Theorem moves_execution n tr d : moves n tr d -> all_complete ops d -> execution ops tr.
Proof.
  intros H Hc. exists (remaining (pend d)). split; [exact (moves_partial_run H)|].
  apply Forall_forall. intros ts Hts. unfold remaining in Hts. apply in_map_iff in Hts. destruct Hts as [i [<- Hi]]. apply in_seq in Hi.
  apply Forall_forall. intros t Ht. apply in_map_iff in Ht. destruct Ht as [j [<- Hj]]. apply in_seq in Hj. unfold pend.
  assert (Et : exists t, task_of i j = Some t).
  { unfold GpuStreams.task_of, ntasks in *. destruct (nth_error ops i) as [o|]; [|lia]. destruct (nth_error (o_tasks o) j) as [t|] eqn:E; [eexists; reflexivity|]. apply nth_error_None in E. lia. }
  destruct Et as [t Et]. rewrite (Hc _ _ _ Et). reflexivity.
Qed.

(** ** progress and termination *)
Definition cost (c : call) : nat := match c with Compute ss | LibCall _ ss | Kernel ss => 1 + length ss | _ => 1 end.
Definition costs (cs : list call) : nat := list_sum (map cost cs).
Definition weight (d : state) (i j : nat) : nat :=
  match task_status d i j with
  | Waiting _ _ => 3 + costs (body (m_variant m i j) (match task_of i j with Some t => t | None => [] end))
  | Running rest => 2 + costs rest + length (queued (queue d (m_stream m i j)) i j)
  | Returned _ _ => 1 + length (queued (queue d (m_stream m i j)) i j)
  | Complete _ _ => 0
  end.
Definition measure (d : state) : nat := list_sum (map (fun i => list_sum (map (weight d i) (seq 0 (ntasks i)))) (seq 0 (length ops))).

Lemma list_sum_le X (f g : X -> nat) l : (forall x, In x l -> f x <= g x) -> list_sum (map f l) <= list_sum (map g l).
Proof. induction l as [|x l IH]; intros H; cbn; [lia|]. assert (A := H x (or_introl eq_refl)). assert (B := IH (fun y Hy => H y (or_intror Hy))). unfold list_sum in B. lia. Qed.
Lemma list_sum_lt X (f g : X -> nat) l x0 : (forall x, In x l -> f x <= g x) -> In x0 l -> f x0 < g x0 -> list_sum (map f l) < list_sum (map g l).
Proof.
  induction l as [|x l IH]; intros H Hin Hlt; [destruct Hin|]. cbn. assert (A := H x (or_introl eq_refl)). assert (B := @list_sum_le X f g l (fun y Hy => H y (or_intror Hy))). unfold list_sum in B.
  destruct Hin as [->|Hin]; [lia|]. assert (C := IH (fun y Hy => H y (or_intror Hy)) Hin Hlt). unfold list_sum in C. lia.
Qed.
Lemma measure_lt d d' i j t : task_of i j = Some t -> (forall i' j', (i', j') <> (i, j) -> weight d' i' j' = weight d i' j') -> weight d' i j < weight d i j -> measure d' < measure d.
Proof.
  intros Ht Ho Hlt. destruct (task_range _ _ Ht) as [Hi Hj].
  assert (Le : forall i' j', weight d' i' j' <= weight d i' j').
  { intros i' j'. destruct (pair_dec i' j' i j) as [E|E]; [injection E as -> ->; lia|]. rewrite Ho by exact E. lia. }
  apply list_sum_lt with (x0 := i); [intros x _; apply list_sum_le; intros; apply Le|apply in_seq; lia|].
  apply list_sum_lt with (x0 := j); [intros; apply Le|apply in_seq; lia|exact Hlt].
Qed.

Lemma measure_move d x d' : inv d -> move d x d' -> measure d' < measure d.
Proof.
  intros I Hm.
  assert (Adv : forall i j e y, (forall i' j', (i', j') <> (i, j) -> task_status e i' j' = task_status d i' j') ->
     (forall i' j', (i', j') <> (i, j) -> queued (queue e (m_stream m i' j')) i' j' = queued (queue d (m_stream m i' j')) i' j') ->
     task_status d i j <> Waiting _ _ -> weight (set_status e i j y) i j < weight d i j ->
     measure (set_status e i j y) < measure d).
  { intros i j e y H1 H2 Hw H3. destruct (i_valid I _ _ Hw) as [t Ht]. refine (@measure_lt d _ i j t Ht _ H3). intros i' j' Hne. unfold weight. rewrite status_other by exact Hne. rewrite H1 by exact Hne.
    change (queue (set_status e i j y)) with (queue e). rewrite H2 by exact Hne. reflexivity. }
  assert (Enq : forall i j ss s, forall i' j', (i', j') <> (i, j) -> queued (queue (enqueue d s (map (Work i j) ss)) (m_stream m i' j')) i' j' = queued (queue d (m_stream m i' j')) i' j').
  { intros i j ss s i' j' Hne. cbn [queue enqueue set_queue]. destruct (Nat.eqb_spec (m_stream m i' j') s) as [->|]; [|reflexivity]. rewrite queued_app, queued_other by congruence. apply app_nil_r. }
  assert (Cons : forall c cs, costs (c :: cs) = cost c + costs cs) by reflexivity.
  destruct Hm as [i j t Ht Hw Hst Hf|i j a ss rest Hst|i j rest Hst|i j l rest sl Hst Hsl|i j l rest sl Hst Hsl|i j l ss rest sl Hst Hsl|i j ss rest Hst|i j rest Hst Hq|i j Hst Hd|i j Hst Hd|s i j a q Hq|s i j q Hq].
  - refine (@measure_lt d _ i j t Ht _ _).
    + intros i' j' Hne. unfold weight. rewrite status_other by exact Hne. reflexivity.
    + unfold weight. rewrite status_same, Hw, Ht. cbn [queue set_status].
      rewrite queued_none; [cbn [length]; lia|]. intros a Ha. destruct (i_work I _ _ _ _ Ha) as (_ & _ & [[r E]|E]); congruence.
  - apply Adv; try reflexivity; [congruence|]. unfold weight. rewrite status_same, Hst. cbn [queue set_status]. rewrite !Cons. cbn [cost length]. lia.
  - apply Adv; try reflexivity; [congruence|]. unfold weight. rewrite status_same, Hst. cbn [queue set_status]. rewrite !Cons. cbn [cost length]. lia.
  - apply Adv; try reflexivity; [congruence|]. unfold weight. rewrite status_same, Hst. cbn [queue set_status]. rewrite !Cons. cbn [cost length]. lia.
  - apply Adv; try reflexivity; [congruence|]. unfold weight. rewrite status_same, Hst. cbn [queue set_status set_handle]. rewrite !Cons. cbn [cost length]. lia.
  - destruct (device_slot _ _ Hsl) as [Hd ->]. pose proof (i_gpu I _ _ Hst Hd) as [Hl _]. unfold stream_set in Hl. rewrite Hl.
    apply Adv; [reflexivity|apply Enq|congruence|]. unfold weight. rewrite status_same, Hst. cbn [queue set_status enqueue set_queue]. rewrite Nat.eqb_refl, queued_app, queued_work, app_length, Cons. cbn [cost]. lia.
  - apply Adv; [reflexivity|apply Enq|congruence|]. unfold weight. rewrite status_same, Hst. cbn [queue set_status enqueue set_queue]. rewrite Nat.eqb_refl, queued_app, queued_work, app_length, Cons. cbn [cost]. lia.
  - apply Adv; try reflexivity; [congruence|]. unfold weight. rewrite status_same, Hst. cbn [queue set_status]. rewrite !Cons. cbn [cost length]. lia.
  - apply Adv; try reflexivity; [congruence|]. unfold weight. rewrite status_same, Hst. lia.
  - assert (Q : forall s i' j', queued (queue (enqueue d s [Marker L V i j]) (m_stream m i' j')) i' j' = queued (queue d (m_stream m i' j')) i' j').
    { intros s i' j'. cbn [queue enqueue set_queue]. destruct (Nat.eqb_spec (m_stream m i' j') s) as [->|]; [|reflexivity]. rewrite queued_app. apply app_nil_r. }
    apply Adv; [reflexivity|intros; apply Q|congruence|]. unfold weight. rewrite status_same, Hst. change (queue (set_status (enqueue d (m_stream m i j) [Marker L V i j]) i j (Returned L V))) with (queue (enqueue d (m_stream m i j) [Marker L V i j])).
    rewrite Q. lia.
  - destruct (i_work I s i j a) as (-> & Hd & Hs); [rewrite Hq; left; reflexivity|].
    assert (Hw : task_status d i j <> Waiting _ _) by (destruct Hs as [[r E]|E]; congruence). destruct (i_valid I _ _ Hw) as [t Ht].
    assert (E1 : queued (queue d (m_stream m i j)) i j = a :: queued q i j).
    { rewrite Hq. change (Work i j a :: q) with ([Work i j a] ++ q). rewrite queued_app. unfold queued at 1. cbn. rewrite !Nat.eqb_refl. reflexivity. }
    refine (@measure_lt d _ i j t Ht _ _).
    + intros i' j' Hne. unfold weight. change (task_status (set_queue d (m_stream m i j) q)) with (task_status d).
      assert (E2 : queued (queue (set_queue d (m_stream m i j) q) (m_stream m i' j')) i' j' = queued (queue d (m_stream m i' j')) i' j').
      { cbn [queue set_queue]. destruct (Nat.eqb_spec (m_stream m i' j') (m_stream m i j)) as [->|]; [|reflexivity]. rewrite Hq. change (Work i j a :: q) with (map (Work i j) [a] ++ q).
        rewrite queued_app, queued_other by congruence. reflexivity. }
      rewrite E2. reflexivity.
    + unfold weight. change (task_status (set_queue d (m_stream m i j) q)) with (task_status d). rewrite queue_same. rewrite E1. destruct Hs as [[r E]|E]; rewrite E; cbn [length]; lia.
  - destruct (i_marker I s [] i j q Hq) as (Es & Hr & Nw & Nm).
    assert (Q : forall i' j', queued (queue (set_queue d s q) (m_stream m i' j')) i' j' = queued (queue d (m_stream m i' j')) i' j').
    { intros i' j'. cbn [queue set_queue]. destruct (Nat.eqb_spec (m_stream m i' j') s) as [->|]; [|reflexivity]. rewrite Hq. reflexivity. }
    apply Adv; [reflexivity|intros; apply Q|congruence|]. unfold weight. rewrite status_same, Hr. lia.
Qed.
(** Every run is finite: its length is bounded by the total size of the bodies. *)
Theorem moves_bounded n tr d : moves n tr d -> n + measure d <= measure (start_state L V).
Proof.
  induction 1 as [|n tr d x d' H IH Hm]; [lia|]. pose proof (measure_move (inv_moves H) Hm). lia.
Qed.

Lemma first_incomplete (d : state) n : (forall i j, i < n -> j < ntasks i -> task_status d i j = Complete _ _) \/
  exists i j, i < n /\ j < ntasks i /\ task_status d i j <> Complete _ _ /\ forall i' j', i' < i -> j' < ntasks i' -> task_status d i' j' = Complete _ _.
Proof.
  induction n as [|n IH]; [left; intros; lia|]. destruct IH as [IH|(i & j & H1 & H2)]; [|right; exists i, j; split; [lia|exact H2]].
  assert (D : forall k, (forall j, j < k -> task_status d n j = Complete _ _) \/ exists j, j < k /\ task_status d n j <> Complete _ _).
  { induction k as [|k IHk]; [left; intros; lia|]. destruct IHk as [IHk|(j & J1 & J2)]; [|right; exists j; split; [lia|exact J2]].
    destruct (task_status d n k) eqn:E; try (right; exists k; split; [lia|congruence]). left. intros j Hj. destruct (Nat.eq_dec j k) as [->|]; [exact E|apply IHk; lia]. }
  destruct (D (ntasks n)) as [D'|(j & J1 & J2)].
  - left. intros i j Hi Hj. destruct (Nat.eq_dec i n) as [->|]; [apply D'; exact Hj|apply IH; [lia|exact Hj]].
  - right. exists n, j. split; [lia|]. split; [exact J1|]. split; [exact J2|]. exact IH.
Qed.
Lemma search (P : nat -> nat -> bool) : (exists i j, i < length ops /\ j < ntasks i /\ P i j = true) \/ forall i j, i < length ops -> j < ntasks i -> P i j = false.
Proof.
  destruct (existsb (fun i => existsb (P i) (seq 0 (ntasks i))) (seq 0 (length ops))) eqn:E.
  - left. apply existsb_exists in E. destruct E as [i [Hi E]]. apply existsb_exists in E. destruct E as [j [Hj E]]. apply in_seq in Hi, Hj. exists i, j. split; [lia|]. split; [lia|exact E].
  - right. intros i j Hi Hj. destruct (P i j) eqn:Ep; [|reflexivity]. rewrite <- E. symmetry. apply existsb_exists. exists i. split; [apply in_seq; lia|].
    apply existsb_exists. exists j. split; [apply in_seq; lia|exact Ep].
Qed.
Lemma range_task i j : i < length ops -> j < ntasks i -> exists t, task_of i j = Some t.
Proof.
  unfold ntasks, GpuStreams.task_of. intros Hi Hj. destruct (nth_error ops i) as [o|]; [|lia]. destruct (nth_error (o_tasks o) j) as [t|] eqn:E; [eexists; reflexivity|]. apply nth_error_None in E. lia.
Qed.
Lemma progress d : inv d -> all_complete ops d \/ exists x d', move d x d'.
Proof.
  intros I.
  destruct (search (fun i j => match queue d (m_stream m i j) with [] => false | _ => true end)) as [(i & j & _ & _ & H)|Hq].
  { right. destruct (queue d (m_stream m i j)) as [|[i' j' a|i' j'] q] eqn:E; [discriminate| |]; eexists _, _; [eapply mv_work|eapply mv_marker]; exact E. }
  assert (Q : forall i j, task_status d i j <> Waiting _ _ -> queue d (m_stream m i j) = []).
  { intros i j Hw. destruct (i_valid I _ _ Hw) as [t Ht]. destruct (task_range _ _ Ht) as [Hi Hj]. specialize (Hq i j Hi Hj). cbn in Hq. destruct (queue d (m_stream m i j)); [reflexivity|discriminate]. }
  destruct (search (fun i j => match task_status d i j with Running _ => true | _ => false end)) as [(i & j & Hi & Hj & H)|Hr].
  { right. destruct (task_status d i j) as [|rest| |] eqn:E; try discriminate.
    assert (Ctx : Forall computes rest -> rest <> [] -> exists ss r, rest = Compute ss :: r).
    { intros F Hne. destruct rest as [|[ss| | | | |] r]; try congruence; try (inversion F; contradiction). eexists _, _. reflexivity. }
    assert (Lc : ~ Forall computes rest -> exists sl, library_context bits (m_proc m i j) = Ok sl /\ on_device m i j = true).
    { intros F. destruct (on_device m i j) eqn:Ed; [|destruct F; exact (i_cpu I _ _ E Ed)]. unfold on_device in Ed. destruct (proc_kind_of (m_proc m i j)) eqn:Ek; [|discriminate].
      eexists. split; [exact (slot_index bits _ Ek)|reflexivity]. }
    destruct rest as [|[[|a ss]|l|l|l ss|ss|] rest].
    - destruct (on_device m i j) eqn:Ed; eexists _, _; [eapply mv_gpu_return|eapply mv_cpu_return]; eassumption.
    - eexists _, _. eapply mv_computed. exact E.
    - eexists _, _. eapply mv_compute. exact E.
    - destruct Lc as [sl [H1 H2]]; [intros F; inversion F; contradiction|]. eexists _, _. eapply mv_handle; eassumption.
    - destruct Lc as [sl [H1 H2]]; [intros F; inversion F; contradiction|]. eexists _, _. eapply mv_set_stream; eassumption.
    - destruct Lc as [sl [H1 H2]]; [intros F; inversion F; contradiction|]. eexists _, _. eapply mv_library; eassumption.
    - eexists _, _. eapply mv_kernel. exact E.
    - eexists _, _. eapply mv_sync; [exact E|]. apply Q. congruence. }
  destruct (first_incomplete d (length ops)) as [Hc|(i & j & Hi & Hj & Hne & Hbefore)].
  { left. intros i j t Ht. destruct (task_range _ _ Ht) as [Hi Hj]. apply Hc; assumption. }
  right. destruct (range_task Hi Hj) as [t Ht]. destruct (task_status d i j) as [|rest| |] eqn:E.
  - eexists _, _. eapply mv_start; [exact Ht|exact E| |].
    + intros i' oi oi' H1 H2 H3 _ j' Hj'. apply Hbefore; [exact H1|]. unfold ntasks. rewrite H2. exact Hj'.
    + intros i' j' r Hr'. assert (Hw : task_status d i' j' <> Waiting _ _) by congruence. destruct (i_valid I _ _ Hw) as [t' Ht']. destruct (task_range _ _ Ht') as [Hi' Hj'].
      specialize (Hr i' j' Hi' Hj'). cbn in Hr. rewrite Hr' in Hr. discriminate.
  - specialize (Hr i j Hi Hj). cbn in Hr. rewrite E in Hr. discriminate.
  - assert (Hw : task_status d i j <> Waiting _ _) by congruence. pose proof (i_returned I _ _ E) as Hin. rewrite (Q _ _ Hw) in Hin. destruct Hin.
  - congruence.
Qed.
(** ... and can be continued until every task is complete. *)
Theorem moves_completed n tr d : moves n tr d -> exists n' tr' d', moves n' (tr ++ tr') d' /\ all_complete ops d'.
Proof.
  remember (measure d) as k eqn:Ek. revert n tr d Ek. induction k as [k IH] using lt_wf_ind. intros n tr d Ek H.
  destruct (progress (inv_moves H)) as [Hc|(x & d' & Hm)].
  - exists n, [], d. rewrite app_nil_r. split; assumption.
  - pose proof (measure_move (inv_moves H) Hm) as Hlt. destruct (IH (measure d') ltac:(lia) (S n) (tr ++ performed x) d' eq_refl) as (n' & tr' & d2 & H1 & H2); [eapply ms_move; eassumption|].
    exists n', (performed x ++ tr'), d2. rewrite app_assoc. split; assumption.
Qed.
End Facts.
