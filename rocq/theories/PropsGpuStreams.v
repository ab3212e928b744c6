(** PropsGpuStreams: property C84.  GPU tasks that only enqueue work on CUDA streams add no behaviours. *)
From Coq Require Import Reals.
From Verif Require Import Base Index Outcome Sched Async Arith Launch Vector VectorFacts LaunchFacts Builder BuilderFacts Exec.
From Verif Require Import PartitionSpec ExactSum Matrix MatrixSpec PropsVector PropsMatrix Planner PlannerFacts PlannerSetup Solvers PropsPlanner PropsSolver
  ExampleSystems PropsExample PropsLaplacian Gpu GpuPlanner GpuPlannerFacts PropsGpuPlanner PropsGpu PropsGpuTasks PropsGpuLayout PropsGpuLaplacian.
From Verif Require Import CudaHandles PropsCudaHandles GpuStreams GpuStreamsFacts.
Set Implicit Arguments.

Section Facts.
Variables L V : Type.
Notation step := (step L V).
Notation op := (op L V).
Lemma partial_run_proj (ops : list op) rem tr rem' : partial_run ops rem tr rem' -> forall i ts ts', nth_error rem i = Some ts -> nth_error rem' i = Some ts' -> finished ts' ->
  interleave ts (proj i tr).
Proof.
  unfold proj. induction 1 as [rem|pre ts1 a t ts2 post tr rem' Hc H IH]; intros i ts ts' Hi Hi' Hf.
  - assert (ts = ts') by congruence. subst ts'. cbn. constructor. exact Hf.
  - cbn [filter fst]. destruct (Nat.eqb_spec (length pre) i) as [<-|Hne].
    + rewrite nth_error_middle in Hi. injection Hi as <-. cbn [map snd]. apply il_cons. eapply IH; [apply nth_error_middle|exact Hi'|exact Hf].
    + eapply IH; [|exact Hi'|exact Hf]. rewrite <- Hi. apply nth_error_middle_other. congruence.
Qed.

Variable bits : nat.
Variable m : machine.
Variable ops : list op.
Hypothesis Hown : own_slots bits m.
Hypothesis Hmatch : variants_match m.
Lemma op_done n tr d i o : moves bits m ops n tr d -> nth_error ops i = Some o -> (forall j, j < length (o_tasks o) -> pend m ops d i j = []) -> interleave (o_tasks o) (proj i tr).
Proof.
  intros H Ho Hp. pose proof (@moves_partial_run L V bits m ops Hown Hmatch n tr d H) as P.
  refine (@partial_run_proj ops _ tr _ P i (o_tasks o) (map (pend m ops d i) (seq 0 (ntasks ops i))) _ _ _).
  - rewrite nth_error_map_some, Ho. reflexivity.
  - assert (Hi : i < length ops) by (apply nth_error_Some; congruence). unfold remaining. rewrite nth_error_map_some. rewrite (@nth_error_nth' nat _ i 0) by (rewrite seq_length; exact Hi).
    rewrite seq_nth by exact Hi. reflexivity.
  - apply Forall_forall. intros t Ht. apply in_map_iff in Ht. destruct Ht as [j [<- Hj]]. apply in_seq in Hj. apply Hp. unfold ntasks in Hj. rewrite Ho in Hj. lia.
Qed.

(** the stream has been synchronised when the calls are over *)
Fixpoint unsynced (b : bool) (cs : list (call L V)) : bool :=
  match cs with
  | [] => b
  | (LibCall _ _ | Kernel _) :: r => unsynced true r
  | Sync _ _ :: r => unsynced false r
  | _ :: r => unsynced b r
  end.
Definition dot_inv (d : state L V) : Prop := forall i j e, m_variant m i j = DotBody e ->
  match task_status d i j with
  | Running rest => exists b, unsynced b rest = false /\ (b = false -> queued (queue d (m_stream m i j)) i j = [])
  | Returned _ _ => queued (queue d (m_stream m i j)) i j = []
  | _ => True
  end.
Lemma dot_inv_move d x d' : inv bits m ops d -> dot_inv d -> move bits m ops d x d' -> dot_inv d'.
Proof.
  intros I J Hm.
  assert (Adv : forall i j e y, (forall i' j', (i', j') <> (i, j) -> task_status e i' j' = task_status d i' j') ->
     (forall i' j', (i', j') <> (i, j) -> queued (queue e (m_stream m i' j')) i' j' = queued (queue d (m_stream m i' j')) i' j') ->
     (forall emp, m_variant m i j = DotBody emp ->
        match y with Running rest => exists b, unsynced b rest = false /\ (b = false -> queued (queue e (m_stream m i j)) i j = [])
                   | Returned _ _ => queued (queue e (m_stream m i j)) i j = [] | _ => True end) ->
     dot_inv (set_status e i j y)).
  { intros i j e y H1 H2 H3 i' j' emp Hv. destruct (pair_dec i' j' i j) as [E|E].
    - injection E as -> ->. rewrite status_same. change (queue (set_status e i j y)) with (queue e). exact (H3 _ Hv).
    - rewrite status_other by exact E. rewrite H1 by exact E. change (queue (set_status e i j y)) with (queue e). rewrite H2 by exact E. exact (J _ _ _ Hv). }
  assert (Enq : forall i j ss s, forall i' j', (i', j') <> (i, j) -> queued (queue (enqueue d s (map (Work i j) ss)) (m_stream m i' j')) i' j' = queued (queue d (m_stream m i' j')) i' j').
  { intros i j ss s i' j' Hne. cbn [queue enqueue set_queue]. destruct (Nat.eqb_spec (m_stream m i' j') s) as [->|]; [|reflexivity]. rewrite queued_app, queued_other by congruence. apply app_nil_r. }
  destruct Hm as [i j t Ht Hw Hst Hf|i j a ss rest Hst|i j rest Hst|i j l rest sl Hst Hsl|i j l rest sl Hst Hsl|i j l ss rest sl Hst Hsl|i j ss rest Hst|i j rest Hst Hq|i j Hst Hd|i j Hst Hd|s i j a q Hq|s i j q Hq].
  - apply Adv; try reflexivity. intros emp Hv. exists false. split; [rewrite Hv; destruct emp; reflexivity|]. intros _. apply queued_none. intros a Ha.
    destruct (i_work I _ _ _ _ Ha) as (_ & _ & [[r E]|E]); congruence.
  - apply Adv; try reflexivity. intros emp Hv. specialize (J _ _ _ Hv). rewrite Hst in J. exact J.
  - apply Adv; try reflexivity. intros emp Hv. specialize (J _ _ _ Hv). rewrite Hst in J. exact J.
  - apply Adv; try reflexivity. intros emp Hv. specialize (J _ _ _ Hv). rewrite Hst in J. exact J.
  - apply Adv; try reflexivity. intros emp Hv. specialize (J _ _ _ Hv). rewrite Hst in J. exact J.
  - apply Adv; [reflexivity|apply Enq|]. intros emp Hv. specialize (J _ _ _ Hv). rewrite Hst in J. destruct J as [b [B1 B2]]. exists true. split; [exact B1|discriminate].
  - apply Adv; [reflexivity|apply Enq|]. intros emp Hv. specialize (J _ _ _ Hv). rewrite Hst in J. destruct J as [b [B1 B2]]. exists true. split; [exact B1|discriminate].
  - apply Adv; try reflexivity. intros emp Hv. specialize (J _ _ _ Hv). rewrite Hst in J. destruct J as [b [B1 B2]]. exists false. split; [exact B1|]. intros _. rewrite Hq. reflexivity.
  - apply Adv; try reflexivity; intros; exact Logic.I.
  - assert (Q : forall s i' j', queued (queue (enqueue d s [Marker L V i j]) (m_stream m i' j')) i' j' = queued (queue d (m_stream m i' j')) i' j').
    { intros s i' j'. cbn [queue enqueue set_queue]. destruct (Nat.eqb_spec (m_stream m i' j') s) as [->|]; [|reflexivity]. rewrite queued_app. apply app_nil_r. }
    apply Adv; [reflexivity|intros; apply Q|]. intros emp Hv. rewrite Q. specialize (J _ _ _ Hv). rewrite Hst in J. destruct J as [b [B1 B2]]. apply B2. exact B1.
  - intros i' j' emp Hv. specialize (J _ _ _ Hv). change (task_status (set_queue d s q)) with (task_status d).
    assert (E : queued (queue d (m_stream m i' j')) i' j' = [] -> queued (queue (set_queue d s q) (m_stream m i' j')) i' j' = []).
    { cbn [queue set_queue]. destruct (Nat.eqb_spec (m_stream m i' j') s) as [->|]; [|auto]. rewrite Hq. change (Work i j a :: q) with ([Work i j a] ++ q). rewrite queued_app. intros H. apply app_eq_nil in H. tauto. }
    destruct (task_status d i' j'); auto. destruct J as [b [B1 B2]]. exists b. split; auto.
  - assert (Q : forall i' j', queued (queue (set_queue d s q) (m_stream m i' j')) i' j' = queued (queue d (m_stream m i' j')) i' j').
    { intros i' j'. cbn [queue set_queue]. destruct (Nat.eqb_spec (m_stream m i' j') s) as [->|]; [|reflexivity]. rewrite Hq. reflexivity. }
    apply Adv; [reflexivity|intros; apply Q|]. intros; exact Logic.I.
Qed.
Lemma dot_inv_moves n tr d : moves bits m ops n tr d -> dot_inv d.
Proof.
  induction 1 as [|n tr d x d' H IH Hm]; [intros i j e _; exact Logic.I|]. eapply dot_inv_move; [|exact IH|exact Hm]. exact (@inv_moves L V bits m ops Hown Hmatch n tr d H).
Qed.
End Facts.

(** ** What a user observes of launches whose tasks run on GPUs with streams *)
Definition streams_end {T} (bits : nat) (m : machine) (lns : list (launch T)) (s s' : store loc T) : Prop :=
  exists n tr d, moves bits m (map (@op_of T) lns) n tr d /\ all_complete (map (@op_of T) lns) d /\ forall l, s' l = Sched.run loc_dec (map snd tr) s l.
(** the program [p] (an application-thread computation, Exec.v) run on such a machine; the machine may depend on what is launched *)
Definition streams_ends {T X} (bits : nat) (m : list (launch T) -> machine) (p : M T X) (st : ist) (s : store loc T) (x : X) (st' : ist) (s' : store loc T) : Prop :=
  exists lns, p st = Ok (x, lns, st') /\ streams_end bits (m lns) lns s s'.
(** no two GPUs share a slot of the handle table; CUDA variants run on GPUs and only there *)
Definition usable_machine (bits : nat) (m : machine) : Prop := own_slots bits m /\ variants_match m.

(** C84: whatever the streams do, what a program ends with is what it may end with when every task does its work itself. *)
Theorem C84_streams_add_no_behaviour : forall T bits m (lns : list (launch T)) s s',
  usable_machine bits m -> streams_end bits m lns s s' -> launches_end lns s s'.
Proof.
  intros T bits m lns s s' [Ho Hv] (n & tr & d & H & Hc & Hs). exists tr. split; [|exact Hs]. exact (@moves_execution loc T bits m _ Ho Hv n tr d H Hc).
Qed.
Theorem C84_programs : forall T X bits m (p : M T X) st s x st' s',
  (forall lns, usable_machine bits (m lns)) -> streams_ends bits m p st s x st' s' -> ends p st s x st' s'.
Proof. intros T X bits m p st s x st' s' Hm (lns & H1 & H2). exists lns. split; [exact H1|]. eapply C84_streams_add_no_behaviour; [apply Hm|exact H2]. Qed.
(** with deterministic launches (disjoint pieces, privileges respected) the result is that of program order *)
Theorem C84_deterministic : forall T bits m (lns : list (launch T)) s s',
  usable_machine bits m -> Forall (@good_launch T) lns -> streams_end bits m lns s s' -> forall l, s' l = effect lns s l.
Proof. intros T bits m lns s s' Hm Hg H. apply launches_end_effect; [exact Hg|]. eapply C84_streams_add_no_behaviour; eassumption. Qed.

(** Once Realm regards all tasks of an operation as complete, all their updates have been made; a dot product's result is
    there as soon as its bodies have returned. *)
Definition returned {L V} (x : status L V) : Prop := x = Running [] \/ x = Returned L V \/ x = Complete L V.
Theorem C84_complete_means_done : forall L V bits m (ops : list (op L V)) n tr d i o,
  usable_machine bits m -> moves bits m ops n tr d -> nth_error ops i = Some o ->
  (forall j, j < length (o_tasks o) -> task_status d i j = Complete L V) -> interleave (o_tasks o) (proj i tr).
Proof.
  intros L V bits m ops n tr d i o [Ho Hv] H Hi Hc. refine (@op_done L V bits m ops Ho Hv n tr d i o H Hi _). intros j Hj. unfold pend. rewrite (Hc j Hj). reflexivity.
Qed.
Theorem C84_dot_result_ready : forall L V bits m (ops : list (op L V)) n tr d i o,
  usable_machine bits m -> moves bits m ops n tr d -> nth_error ops i = Some o ->
  (forall j, j < length (o_tasks o) -> (exists e, m_variant m i j = DotBody e) /\ returned (task_status d i j)) -> interleave (o_tasks o) (proj i tr).
Proof.
  intros L V bits m ops n tr d i o [Ho Hv] H Hi Hc. refine (@op_done L V bits m ops Ho Hv n tr d i o H Hi _). intros j Hj. destruct (Hc j Hj) as [[e He] Hr].
  pose proof (@dot_inv_moves L V bits m ops Ho Hv n tr d H i j e He) as D. unfold pend. destruct Hr as [E|[E|E]]; rewrite E in *; [|exact D|reflexivity].
  destruct D as [b [B1 B2]]. cbn in B1. rewrite (B2 B1). reflexivity.
Qed.
(** Runs never get stuck and never go on for ever. *)
Theorem C84_terminates : forall L V bits m (ops : list (op L V)), usable_machine bits m ->
  (exists bound, forall n tr d, moves bits m ops n tr d -> n <= bound) /\
  (forall n tr d, moves bits m ops n tr d -> all_complete ops d \/ exists x d', move bits m ops d x d').
Proof.
  intros L V bits m ops [Ho Hv]. split.
  - eexists. intros n tr d H. pose proof (@moves_bounded L V bits m ops Ho Hv n tr d H) as B. etransitivity; [|exact B]. apply Nat.le_add_r.
  - intros n tr d H. apply (@progress L V bits m ops). exact (@inv_moves L V bits m ops Ho Hv n tr d H).
Qed.

(** CG on the 1-D Laplacian with CPU and GPU tasks mixed (C75), the GPU work on streams. *)
Theorem C84_cg_solves_laplacian_on_streams : forall lg mp red (n : nat) v w m st s (b : nat -> R) bits mach,
  legion_ok lg -> legal_mapping exact mp -> legal_reduction exact red -> 2 <= n -> interval_grid lg n v -> laplacian_matrix n (pv_space v) m ->
  constructed lg v -> constructed lg w -> pv_space w = pv_space v -> pv_part w = pv_part v -> storage v <> storage w ->
  pv_region v < next_region st -> pv_region w < next_region st ->
  (forall i, i < n -> s (at_point v [Z.of_nat i]) = Some 0%R) -> (forall i, i < n -> s (at_point w [Z.of_nat i]) = Some (b i)) ->
  (forall lns, usable_machine bits (mach lns)) ->
  exists pl0 (k : nat) (x : nat -> R), do_calls lg (new_planner (option R)) [AddSol v; AddRhs w; AddMatrix m 0 0] = Ok pl0 /\
    k <= n /\ accepted (cg_run_with exact lg red (mapped_pl_matvec exact lg mp) pl0 k) st /\
    (forall c st' s', streams_ends bits mach (cg_run_with exact lg red (mapped_pl_matvec exact lg mp) pl0 k) st s c st' s' ->
       forall i, i < n -> s' (at_point v [Z.of_nat i]) = Some (x i)) /\
    (forall i, i < n -> tridiagonal_equation n x b i).
Proof.
  intros lg mp red n v w m st s b bits mach H1 H2 H3 H4 H5 H6 H7 H8 H9 H10 H11 H12 H13 H14 H15 Hm.
  destruct (@C75_cg_solves_laplacian_on_gpus lg mp red n v w m st s b) as (pl0 & k & x & A & B & C & D & E); try assumption.
  exists pl0, k, x. split; [exact A|]. split; [exact B|]. split; [exact C|]. split; [|exact E].
  intros c st' s' H. apply (D c st' s'). eapply C84_programs; [exact Hm|exact H].
Qed.

(** ** GPUs that share a slot of the handle table *)
Section Shared.
Variable bits : nat.
Variables p q cpu : processor.
Local Open Scope nat_scope.
(** Operation 0 writes 1 to location 0 (an axpy on GPU [p], stream 1), operation 1 writes 1 to location 1 (an axpy on GPU [q], stream 2);
    operation 2 copies location 0 to location 2 on a CPU. *)
Definition write_one (l : nat) : op nat nat := mk_op [[mk_step l [] (fun _ => 1)]] (fun _ => False) (fun x => x = l).
Definition copy_first : op nat nat := mk_op [[mk_step 2 [0] (fun vs => hd 0 vs)]] (fun x => x = 0) (fun x => x = 2).
Definition three_ops : list (op nat nat) := [write_one 0; write_one 1; copy_first].
Definition three_machine : machine :=
  mk_machine (fun i _ => match i with 0 => p | 1 => q | _ => cpu end) (fun i _ => match i with 0 => 1 | 1 => 2 | _ => 0 end)
    (fun i _ => match i with 0 | 1 => AxpyBody | _ => CpuBody end).
Hypothesis Hp : proc_kind_of p = TOC_PROC.
Hypothesis Hq : proc_kind_of q = TOC_PROC.
Hypothesis Hc : proc_kind_of cpu = OTHER_PROC.
Lemma three_match : variants_match three_machine.
Proof. intros i j. destruct i as [|[|i]]; cbn; split; congruence. Qed.
Lemma no_conflict_01 : ~ conflict (write_one 0) (write_one 1).
Proof. intros [l [[H1 [[]|H2]]|[[] _]]]. cbn in *. congruence. Qed.
Lemma three_executions tr s : execution three_ops tr -> Sched.run Nat.eq_dec (map snd tr) s 2 = 1.
Proof.
  intros H. destruct (@async_program_order nat nat Nat.eq_dec three_ops tr) as [trs [F E]]; [|exact H|].
  { apply Forall_forall. intros o [<-|[<-|[<-|[]]]] t st [<-|[]] [<-|[]]; cbn; (split; [reflexivity|]); intros l; cbn; intuition congruence. }
  rewrite E. inversion F as [|o1 t1 ? ? I1 F1]; subst. inversion F1 as [|o2 t2 ? ? I2 F2]; subst. inversion F2 as [|o3 t3 ? ? I3 F3]; subst. inversion F3; subst. clear F F1 F2 F3.
  assert (One : forall (a : step nat nat) t, interleave [[a]] t -> t = [a]).
  { intros a t Ht. remember [[a]] as ts eqn:Ets. destruct Ht as [ts Hn|ts1 b t' ts2 tr' Ht].
    - subst ts. inversion Hn; discriminate.
    - destruct ts1 as [|x ts1]; [|destruct ts1; discriminate]. cbn in Ets. injection Ets as -> -> ->. f_equal.
      cbn [app] in Ht. remember [@nil (step nat nat)] as ts eqn:Ets2. destruct Ht as [? _|ts1 b' t' ts2 tr'' Ht]; [reflexivity|]. destruct ts1 as [|x ts1]; [discriminate Ets2|destruct ts1; discriminate Ets2]. }
  cbn [o_tasks write_one copy_first] in I1, I2, I3. rewrite (One _ _ I1), (One _ _ I2), (One _ _ I3). reflexivity.
Qed.

(** C84: if they do share one, a task may count as complete although its kernel has not run, and operation 2 reads the old value. *)
Lemma shared_run : p <> q -> same_slot bits p q -> exists n tr d, moves bits three_machine three_ops n tr d /\ all_complete three_ops d /\
  Sched.run Nat.eq_dec (map snd tr) (fun _ => 0) 2 = 0.
Proof.
  intros Hne Hs.
  assert (Lp : library_context bits p = Ok (proc_id p mod 2 ^ Z.of_nat bits)%Z) by (apply slot_index; exact Hp).
  assert (Lq : library_context bits q = Ok (proc_id p mod 2 ^ Z.of_nat bits)%Z) by (unfold same_slot in Hs; rewrite Hs; apply slot_index; exact Hq).
  set (sl := (proc_id p mod 2 ^ Z.of_nat bits)%Z) in *.
  assert (D : forall i j, on_device three_machine i j = match i with 0 | 1 => true | _ => false end) by (intros [|[|i]] j; unfold on_device; cbn; [rewrite Hp|rewrite Hq|rewrite Hc]; reflexivity).
  assert (Pc : cpu <> p /\ cpu <> q) by (split; intros E; rewrite E in Hc; congruence).
  set (mc := three_machine) in *.
  pose proof (@ms_start nat nat bits mc three_ops) as M.
  eapply ms_move in M; [|apply (@mv_start _ _ bits mc three_ops _ 0 0 [mk_step 0 [] (fun _ => 1)]); [reflexivity|reflexivity| |]].
  2:{ intros i' oi oi' Hi. lia. }
  2:{ intros i' j' r Hr. discriminate. }
  eapply ms_move in M; [|apply (@mv_start _ _ bits mc three_ops _ 1 0 [mk_step 1 [] (fun _ => 1)]); [reflexivity|reflexivity| |]].
  2:{ intros i' oi oi' Hi H1 H2 Hcf j' Hj. exfalso. destruct i' as [|i']; [|lia]. cbn in H1, H2. injection H1 as <-. injection H2 as <-. exact (no_conflict_01 Hcf). }
  2:{ intros i' j' r Hr. cbn in *. destruct i' as [|[|i']]; cbn in *; try discriminate. exact Hne. }
  eapply ms_move in M; [|eapply (@mv_handle _ _ bits mc three_ops _ 0 0 CUBLAS _ sl); [reflexivity|exact Lp]].
  eapply ms_move in M; [|eapply (@mv_set_stream _ _ bits mc three_ops _ 0 0 CUBLAS _ sl); [reflexivity|exact Lp]].
  eapply ms_move in M; [|eapply (@mv_handle _ _ bits mc three_ops _ 1 0 CUBLAS _ sl); [reflexivity|exact Lq]].
  eapply ms_move in M; [|eapply (@mv_set_stream _ _ bits mc three_ops _ 1 0 CUBLAS _ sl); [reflexivity|exact Lq]].
  eapply ms_move in M; [|eapply (@mv_library _ _ bits mc three_ops _ 0 0 CUBLAS _ _ sl); [reflexivity|exact Lp]].
  eapply ms_move in M; [|eapply (@mv_gpu_return _ _ bits mc three_ops _ 0 0); [reflexivity|apply D]].
  eapply ms_move in M; [|eapply (@mv_marker _ _ bits mc three_ops _ 1 0 0 []); cbn; rewrite ?Z.eqb_refl; reflexivity].
  eapply ms_move in M; [|apply (@mv_start _ _ bits mc three_ops _ 2 0 [mk_step 2 [0] (fun vs => hd 0 vs)]); [reflexivity|reflexivity| |]].
  2:{ intros i' oi oi' Hi H1 H2 Hcf j' Hj. destruct i' as [|[|i']]; [| |lia].
      - cbn in H1. injection H1 as <-. cbn in Hj. replace j' with 0 by lia. reflexivity.
      - exfalso. cbn in H1, H2. injection H1 as <-. injection H2 as <-. destruct Hcf as [l [[X1 [X2|X2]]|[[] _]]]; cbn in *; congruence. }
  2:{ intros i' j' r Hr. cbn. destruct i' as [|[|i']]; cbn; destruct Pc; try congruence. cbn in Hr. discriminate. }
  eapply ms_move in M; [|eapply (@mv_compute _ _ bits mc three_ops _ 2 0 (mk_step 2 [0] (fun vs => hd 0 vs)) [] []); reflexivity].
  eapply ms_move in M; [|eapply (@mv_computed _ _ bits mc three_ops _ 2 0 []); reflexivity].
  eapply ms_move in M; [|eapply (@mv_cpu_return _ _ bits mc three_ops _ 2 0); [reflexivity|apply D]].
  eapply ms_move in M; [|eapply (@mv_library _ _ bits mc three_ops _ 1 0 CUBLAS _ _ sl); [reflexivity|exact Lq]].
  eapply ms_move in M; [|eapply (@mv_gpu_return _ _ bits mc three_ops _ 1 0); [reflexivity|apply D]].
  eapply ms_move in M; [|eapply (@mv_work _ _ bits mc three_ops _ 2 0 0 (mk_step 0 [] (fun _ => 1)) [Work 1 0 (mk_step 1 [] (fun _ => 1)); Marker _ _ 1 0]); cbn; rewrite ?Z.eqb_refl; reflexivity].
  eapply ms_move in M; [|eapply (@mv_work _ _ bits mc three_ops _ 2 1 0 (mk_step 1 [] (fun _ => 1)) [Marker _ _ 1 0]); cbn; rewrite ?Z.eqb_refl; reflexivity].
  eapply ms_move in M; [|eapply (@mv_marker _ _ bits mc three_ops _ 2 1 0 []); cbn; rewrite ?Z.eqb_refl; reflexivity].
  do 3 eexists. split; [exact M|]. split.
  - intros i j t Ht. destruct i as [|[|[|i]]]; cbn in Ht; try (destruct j as [|[|j]]; discriminate || reflexivity). destruct i; discriminate.
  - reflexivity.
Qed.
Theorem C84_shared_slot : p <> q -> same_slot bits p q -> exists n tr d, moves bits three_machine three_ops n tr d /\ all_complete three_ops d /\
  ~ execution three_ops tr.
Proof.
  intros Hne Hs. destruct (shared_run Hne Hs) as (n & tr & d & H1 & H2 & H3). exists n, tr, d. split; [exact H1|]. split; [exact H2|].
  intros H. rewrite (three_executions (fun _ => 0) H) in H3. discriminate.
Qed.
End Shared.

(** ** Examples: two GPUs with their own slots *)
Definition gpu (n : Z) : processor := mk_proc n TOC_PROC.
Definition cpu0 : processor := mk_proc 0 OTHER_PROC.
Definition good_machine : machine := three_machine (gpu 5) (gpu 6) cpu0.
Lemma good_machine_usable : usable_machine 10 good_machine.
Proof.
  split; [|apply three_match; reflexivity]. intros i j i' j' Hi Hi' Hs. unfold same_slot in Hs.
  destruct i as [|[|i]]; destruct i' as [|[|i']]; cbn in *; try discriminate; reflexivity.
Qed.
(** A body may return before its work is done, nothing that depends on it starts before, and in the end location 2 holds 1. *)
Theorem C84_example : usable_machine 10 good_machine /\
  (exists n d, moves 10 good_machine three_ops n [] d /\ task_status d 0 0 = Returned _ _ /\ queue d 1 <> []) /\
  (exists n tr d, moves 10 good_machine three_ops n tr d /\ all_complete three_ops d) /\
  (forall n tr d, moves 10 good_machine three_ops n tr d -> all_complete three_ops d -> Sched.run Nat.eq_dec (map snd tr) (fun _ => 0) 2 = 1).
Proof.
  pose proof good_machine_usable as [Ho Hv]. split; [split; assumption|].
  assert (E : exists n d, moves 10 good_machine three_ops n [] d /\ task_status d 0 0 = Returned _ _ /\ queue d 1 <> []).
  { pose proof (@ms_start nat nat 10 good_machine three_ops) as M.
    eapply ms_move in M; [|apply (@mv_start _ _ 10 good_machine three_ops _ 0 0 [mk_step 0 [] (fun _ => 1)]); [reflexivity|reflexivity| |]].
    2:{ intros i' oi oi' Hi. lia. }
    2:{ intros i' j' r Hr. discriminate. }
    eapply ms_move in M; [|eapply (@mv_handle _ _ 10 good_machine three_ops _ 0 0 CUBLAS _ 5); reflexivity].
    eapply ms_move in M; [|eapply (@mv_set_stream _ _ 10 good_machine three_ops _ 0 0 CUBLAS _ 5); reflexivity].
    eapply ms_move in M; [|eapply (@mv_library _ _ 10 good_machine three_ops _ 0 0 CUBLAS _ _ 5); reflexivity].
    eapply ms_move in M; [|eapply (@mv_gpu_return _ _ 10 good_machine three_ops _ 0 0); reflexivity].
    do 2 eexists. split; [exact M|]. split; [reflexivity|]. discriminate. }
  split; [exact E|]. split.
  - destruct E as (n & d & M & _). destruct (@moves_completed nat nat 10 good_machine three_ops Ho Hv n [] d M) as (n' & tr' & d' & H1 & H2). exists n', tr', d'. split; assumption.
  - intros n tr d H Hc. apply three_executions. exact (@moves_execution nat nat 10 good_machine three_ops Ho Hv n tr d H Hc).
Qed.
(** a dot product of one piece on GPU 5 *)
Definition dot_op : op nat nat := mk_op [[mk_step 1 [0] (fun vs => hd 0 vs * hd 0 vs)]] (fun x => x = 0) (fun x => x = 1).
Definition dot_machine : machine := mk_machine (fun _ _ => gpu 5) (fun _ _ => 3) (fun _ _ => DotBody false).
Theorem C84_dot_example : usable_machine 10 dot_machine /\
  (exists n tr d, moves 10 dot_machine [dot_op] n tr d /\ task_status d 0 0 = Running []) /\
  (forall n tr d, moves 10 dot_machine [dot_op] n tr d -> returned (task_status d 0 0) -> Sched.run Nat.eq_dec (map snd tr) (fun _ => 7) 1 = 49).
Proof.
  assert (U : usable_machine 10 dot_machine). { split; [intros i j i' j' _ _ _; reflexivity|]. intros i j. cbn. split; discriminate. }
  split; [exact U|]. split.
  - pose proof (@ms_start nat nat 10 dot_machine [dot_op]) as M.
    eapply ms_move in M; [|apply (@mv_start _ _ 10 dot_machine [dot_op] _ 0 0 [mk_step 1 [0] (fun vs => hd 0 vs * hd 0 vs)]); [reflexivity|reflexivity| |]].
    2:{ intros i' oi oi' Hi. lia. }
    2:{ intros i' j' r Hr. discriminate. }
    eapply ms_move in M; [|eapply (@mv_handle _ _ 10 dot_machine _ _ 0 0 CUBLAS _ 5); reflexivity].
    eapply ms_move in M; [|eapply (@mv_set_stream _ _ 10 dot_machine _ _ 0 0 CUBLAS _ 5); reflexivity].
    eapply ms_move in M; [|eapply (@mv_library _ _ 10 dot_machine _ _ 0 0 CUBLAS _ _ 5); reflexivity].
    eapply ms_move in M; [|eapply (@mv_work _ _ 10 dot_machine _ _ 3 0 0 _ []); reflexivity].
    eapply ms_move in M; [|eapply (@mv_sync _ _ 10 dot_machine _ _ 0 0); reflexivity].
    do 3 eexists. split; [exact M|]. reflexivity.
  - intros n tr d M Hr.
    pose proof (@C84_dot_result_ready nat nat 10 dot_machine [dot_op] n tr d 0 dot_op U M eq_refl) as H.
    assert (D : interleave (o_tasks dot_op) (proj 0 tr)).
    { apply H. intros j Hj. cbn in Hj. replace j with 0 by lia. split; [exists false; reflexivity|exact Hr]. }
    assert (P : forall x, In x tr -> fst x = 0).
    { destruct U as [Ho Hv]. intros x Hx. pose proof (partial_run_tags (@moves_partial_run nat nat 10 dot_machine [dot_op] Ho Hv n tr d M) x Hx) as B. cbn in B. lia. }
    assert (E : proj 0 tr = map snd tr).
    { clear - P. unfold proj. f_equal. induction tr as [|x tr IH]; [reflexivity|]. cbn. rewrite (P x (or_introl eq_refl)). cbn. f_equal. apply IH. intros y Hy. apply P. right. exact Hy. }
    rewrite E in D. rewrite (@interleave_deterministic nat nat Nat.eq_dec _ _ D).
    + reflexivity.
    + intros i j ti tj l Hne Hi Hj. destruct i as [|[|i]]; destruct j as [|[|j]]; cbn in Hi, Hj; try discriminate. congruence.
Qed.
