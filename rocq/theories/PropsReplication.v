(** PropsReplication: C95 - the library under control replication: any number of shards, any assignment of the points
    of the operations to shards, same results as without it. *)
From Coq Require Import Reals Lra.
From Verif Require Import Base Index IndexFacts Outcome Sched Async Arith Launch Vector PartitionSpec VectorFacts LaunchFacts Matrix MatrixSpec MatrixFacts
  MatvecFacts Builder BuilderFacts Exec ExactSum LinAlg CGSpec CGMath Planner PlannerFacts PlannerSetup Solvers PropsVector PropsMatrix PropsPlanner
  PropsSolver SolverFacts PropsCG PropsCGConv SolverExample ExampleSystems PropsExample PropsLaplacian LaplacianCG PrintScalar PropsPrintScalar
  TestPrograms PropsTests Sharding PropsSharding Replication.
Set Implicit Arguments.

(** Every point of every operation is assigned to one of [n] shards. *)
Definition assigned {L V} (n : nat) (own : nat -> nat -> nat) (ops : list (op L V)) : Prop :=
  forall k o i, nth_error ops k = Some o -> i < length (o_tasks o) -> own k i < n.
(** ... by the library's functor. *)
Definition blocking {L V} (n : nat) (own : nat -> nat -> nat) (ops : list (op L V)) : Prop :=
  forall k o i, nth_error ops k = Some o -> i < length (o_tasks o) ->
    shard (Z.of_nat i) (interval (Z.of_nat (length (o_tasks o)))) (Z.of_nat n) = Ok (Z.of_nat (own k i)).

(** Program [m], run by every one of [n] shards, may return [x] and end with store [s']. *)
Definition replicated_ends {T X} (n : nat) (own : nat -> nat -> nat) (m : M T X) (st : ist) (s : store loc T) (x : X) (st' : ist) (s' : store loc T) : Prop :=
  exists lns tr, m st = Ok (x, lns, st') /\ assigned n own (map (@op_of T) lns) /\
    replicated_execution n own (map (@op_of T) lns) tr /\ forall l, s' l = run loc_dec (map snd tr) s l.

Lemma untagged_steps {L V} (tr : list (nat * nat * step L V)) : map snd (untagged tr) = map snd tr.
Proof. unfold untagged. rewrite map_map. reflexivity. Qed.

(** The library's functor, asked for the points of any launches of admissible sizes, assigns all of them. *)
Theorem C95_functor_assigns : forall L V (n : nat) (ops : list (op L V)),
  (forall o, In o ops -> o_tasks o <> [] -> sizes_ok (Z.of_nat (length (o_tasks o))) (Z.of_nat n)) ->
  (exists own, blocking n own ops) /\ forall own, blocking n own ops -> assigned n own ops.
Proof.
  intros L V n ops Hs.
  assert (G : forall k o i, nth_error ops k = Some o -> i < length (o_tasks o) ->
    exists j, j < n /\ shard (Z.of_nat i) (interval (Z.of_nat (length (o_tasks o)))) (Z.of_nat n) = Ok (Z.of_nat j)).
  { intros k o i Hk Hi. assert (H := Hs o (nth_error_In _ _ Hk) ltac:(intros E; rewrite E in Hi; cbn in Hi; lia)). destruct (C33_blocking_shards H) as (q & _ & A & _).
    destruct (A (Z.of_nat i)) as (j & E & Hj & _); [lia|]. exists (Z.to_nat j). split; [lia|]. rewrite E. f_equal. lia. }
  split.
  - exists (fun k i => match nth_error ops k with
                       | Some o => match shard (Z.of_nat i) (interval (Z.of_nat (length (o_tasks o)))) (Z.of_nat n) with Ok j => Z.to_nat j | _ => 0 end
                       | None => 0 end).
    intros k o i Hk Hi. rewrite Hk. destruct (G k o i Hk Hi) as (j & Hj & E). rewrite E. f_equal. lia.
  - intros own Hb k o i Hk Hi. destruct (G k o i Hk Hi) as (j & Hj & E). rewrite (Hb k o i Hk Hi) in E. injection E as E. lia.
Qed.
(** A launch whose domain is not a dense 1-D interval from 0 is not sharded at all: the functor's asserts stop the program. *)
Theorem C95_other_domains_stop : forall p d n, ld_dim d <> 1%Z \/ ld_dense d = false \/ ld_lo d <> 0%Z -> shard p d n = AssertFail.
Proof.
  intros p d n H. unfold shard, oassert. destruct (Z.eqb_spec (ld_dim d) 1); [|reflexivity]. destruct (ld_dense d); [|reflexivity].
  destruct (Z.eqb_spec (ld_lo d) 0); [|reflexivity]. destruct H as [H|[H|H]]; congruence.
Qed.

(** Every point task is run by exactly one shard, to its end, and a shard runs nothing else. *)
Theorem C95_each_task_on_one_shard : forall L V n own (ops : list (op L V)) tr,
  assigned n own ops -> replicated_execution n own ops tr ->
  (forall k s o, nth_error ops k = Some o -> s < n -> interleave (points_of (own k) s (o_tasks o)) (on_shard k s tr)) /\
  (forall k o, nth_error ops k = Some o -> Permutation (concat (map (fun s => points_of (own k) s (o_tasks o)) (seq 0 n))) (o_tasks o)) /\
  (forall k s a, In (k, s, a) tr -> k < length ops /\ s < n).
Proof.
  intros L V n own ops tr Ha (rem & Hr & Hf). split; [|split].
  - intros k s o Hk Hs. destruct (nth_error_replicas own ops k Hk Hs) as (shs & E1 & E2).
    exact (@on_shard_interleave L V ops _ _ _ _ _ Hr Hf k s shs _ E1 E2).
  - intros k o Hk. unfold points_of. apply points_of_cover. intros i Hi. apply (Ha k o i Hk). lia.
  - intros k s a. clear Hf Ha.
    assert (G : forall i r t i' r', replicated_run ops i r t i' r' -> length i = n -> Forall (fun c => c <= length ops) i ->
              In (k, s, a) t -> k < length ops /\ s < n).
    { induction 1 as [|before c after r t i' r' Hc H IH|i pre sh1 ts1 b u ts2 sh2 post t i' r' Hi Hc H IH]; intros Hn Hle Hin; [destruct Hin| |].
      - apply IH; [rewrite app_length in *; exact Hn| |exact Hin]. rewrite Forall_app in *. destruct Hle as [A B]. split; [exact A|].
        inversion B; subst. constructor; [lia|assumption].
      - destruct Hin as [E|Hin]; [|apply IH; assumption]. injection E as <- <- <-. destruct Hi as (c & E & Hlt).
        rewrite Forall_forall in Hle. specialize (Hle c (nth_error_In _ _ E)). split; [lia|].
        rewrite <- Hn. apply nth_error_Some. congruence. }
    intros Hin. eapply G; [exact Hr|apply repeat_length|apply le_repeat|exact Hin].
Qed.

(** The executions are the same, up to the place where the updates happen: control replication adds none and loses none. *)
Theorem C95_same_executions : forall L V n own (ops : list (op L V)), assigned n own ops ->
  (forall tr, replicated_execution n own ops tr -> execution ops (untagged tr)) /\
  (forall tr, execution ops tr -> exists tr', replicated_execution n own ops tr' /\ untagged tr' = tr).
Proof.
  intros L V n own ops Ha. split; intros tr H; [eapply replicated_execution_async|eapply execution_replicated]; eassumption.
Qed.
(** Whatever the shards have done so far, they can finish: no shard waits for ever for another one. *)
Theorem C95_no_deadlock : forall L V n own (ops : list (op L V)) tr issued rem,
  replicated_run ops (repeat 0 n) (replicas n own ops) tr issued rem ->
  exists tr', replicated_execution n own ops (tr ++ tr').
Proof. intros. eapply replicated_no_deadlock; eassumption. Qed.

(** A program ends on [n] shards exactly as it may end without control replication. *)
Theorem C95_same_results : forall T X (m : M T X) n own st s x st' s',
  (forall y lns st1, m st = Ok (y, lns, st1) -> assigned n own (map (@op_of T) lns)) ->
  (replicated_ends n own m st s x st' s' <-> ends m st s x st' s').
Proof.
  intros T X m n own st s x st' s' Ha. split.
  - intros (lns & tr & Hm & _ & Hx & Hs). exists lns. split; [exact Hm|]. exists (untagged tr). split.
    + apply (C95_same_executions (Ha _ _ _ Hm)). exact Hx.
    + rewrite untagged_steps. exact Hs.
  - intros (lns & Hm & tr & Hx & Hs). destruct (C95_same_executions (Ha _ _ _ Hm)) as [_ G]. destruct (G tr Hx) as (tr' & Hr & E).
    exists lns, tr'. split; [exact Hm|]. split; [eapply Ha; exact Hm|]. split; [exact Hr|]. rewrite <- untagged_steps, E. exact Hs.
Qed.

(** A program that runs deterministically (C54: set-up and solver runs; C80: vector programs) leaves the same store,
    bit by bit, on any two numbers of shards and under any two assignments. *)
Theorem C95_shard_count_is_invisible : forall T X (m : M T X) st s n1 own1 x1 st1 s1 n2 own2 x2 st2 s2,
  runs_deterministically m st s ->
  replicated_ends n1 own1 m st s x1 st1 s1 -> replicated_ends n2 own2 m st s x2 st2 s2 -> x1 = x2 /\ forall l, s1 l = s2 l.
Proof.
  intros T X m st s n1 own1 x1 st1 s1 n2 own2 x2 st2 s2 (_ & _ & D) E1 E2.
  assert (G : forall n own x st' s', replicated_ends n own m st s x st' s' -> ends m st s x st' s').
  { intros n own x st' s' H. assert (H' := H). destruct H' as (lns & tr & Hm & Ha & _). apply (@C95_same_results T X m n own st s x st' s'); [|exact H].
    intros y l2 st3 Hy. rewrite Hm in Hy. injection Hy as -> -> ->. exact Ha. }
  exact (D _ _ _ _ _ _ (G _ _ _ _ _ E1) (G _ _ _ _ _ E2)).
Qed.
Lemma replicated_ends_ends T X (m : M T X) n own st s x st' s' : replicated_ends n own m st s x st' s' -> ends m st s x st' s'.
Proof.
  intros H. assert (H' := H). destruct H' as (lns & tr & Hm & Ha & _). apply (@C95_same_results T X m n own st s x st' s'); [|exact H].
  intros y l2 st3 Hy. rewrite Hm in Hy. injection Hy as -> -> ->. exact Ha.
Qed.
(** With the library's functor every accepted program does end. *)
Theorem C95_accepted_programs_finish : forall T X (m : M T X) n st s,
  (forall y lns st1, m st = Ok (y, lns, st1) -> forall ln, In ln lns -> ln_tasks ln <> [] -> sizes_ok (Z.of_nat (length (ln_tasks ln))) (Z.of_nat n)) ->
  accepted m st -> exists own x st' s', replicated_ends n own m st s x st' s'.
Proof.
  intros T X m n st s Hs Hacc. destruct (accepted_ends s Hacc) as (x & st' & s' & He). assert (He' := He). destruct He' as (lns & Hm & _).
  destruct (@C95_functor_assigns _ _ n (map (@op_of T) lns)) as [(own & Hb) Ha].
  { intros o Ho. apply in_map_iff in Ho. destruct Ho as (ln & <- & Hln). exact (Hs _ _ _ Hm ln Hln). }
  exists own, x, st', s'. apply C95_same_results; [|exact He]. intros y l2 st3 Hy. rewrite Hm in Hy. injection Hy as <- <- <-. exact (Ha _ Hb).
Qed.

(** Conjugate gradients on any number of shards solves the system (C38 without replication). *)
Theorem C95_cg_solves : forall lg red (cs : list (setup_call (option R))) st pl0 s b,
  legion_ok lg -> legal_reduction exact red -> set_up lg cs st pl0 -> real_entries cs -> 0 < length (sols_of cs) ->
  vectors_hold lg s (sols_of cs) (fun _ => 0%R) -> vectors_hold lg s (rhss_of cs) b ->
  symmetric (unknowns lg cs) (operator cs) -> positive_definite (unknowns lg cs) (operator cs) ->
  exists (k : nat) (x : unknown -> R), k <= length (unknowns lg cs) /\
    (forall n own c st' s', replicated_ends n own (cg_run exact lg red pl0 k) st s c st' s' -> vectors_hold lg s' (sols_of cs) x) /\
    (forall u, In u (unknowns lg cs) -> apply_op (unknowns lg cs) (operator cs) x u = b u).
Proof.
  intros lg red cs st pl0 s b Hlg Hred Hs Hre Hn Hx Hb Hsym Hpd.
  destruct (@C38_cg_solves lg red cs st pl0 s b Hlg Hred Hs Hre Hn Hx Hb Hsym Hpd) as (k & x & Hk & _ & H & Hax & _).
  exists k, x. split; [exact Hk|]. split; [|exact Hax]. intros n own c st' s' He. exact (H _ _ _ (replicated_ends_ends He)).
Qed.

(** The lines the solver tests print are the same on any number of shards (C77, C90 without replication). *)
Theorem C95_cg_tests_print : forall lg red n q m k st s,
  legion_ok lg -> legal_reduction exact red -> 1 <= n -> grid_1d n (is_points lg (part_parent lg q)) -> partition_disjoint lg q -> partition_complete lg q ->
  laplacian_matrix n (part_parent lg q) m -> 2 * k <= n + 1 ->
  exists sol c prints lns st',
    (let* y := cg_test exact lg red q m k in let* ns := print_in_order exact (cg_norms (snd y)) in ret (y, ns)) st = Ok ((sol, c), prints, lns, st') /\
    forall shards own tr, assigned shards own (map (@op_of _) lns) -> replicated_execution shards own (map (@op_of _) lns) tr ->
      shown prints (map snd tr) s = map (fun j => Some (expected_line n j)) (seq 0 (S k)).
Proof.
  intros lg red n q m k st s Hlg Hred Hn Hg Hd Hc Hm Hk.
  destruct (@C77_cg_tests_print lg red n q m k st s Hlg Hred Hn Hg Hd Hc Hm Hk) as (sol & c & prints & lns & st' & E & H).
  exists sol, c, prints, lns, st'. split; [exact E|]. intros shards own tr Ha Hr. rewrite <- untagged_steps. apply H.
  apply (C95_same_executions Ha). exact Hr.
Qed.

(** ---- examples ---- *)
(** diag(1, 2) x = (1, 1): CG on three shards, the points dealt round robin, leaves (1, 1/2); every run ends. *)
Example C95_example : exists pl0 k x, set_up lg2 (diag_calls 1 2) ex_st pl0 /\
  let m := cg_run exact lg2 (fun _ l => fold_right (aadd exact) (a0 exact) l) pl0 k in
  (exists c st' s', replicated_ends 3 (fun k i => (k + i) mod 3) m ex_st ones_store c st' s') /\
  (forall c st' s', replicated_ends 3 (fun k i => (k + i) mod 3) m ex_st ones_store c st' s' ->
     vectors_hold lg2 s' (sols_of (diag_calls 1 2)) x) /\ (x u0 = 1 /\ x u1 = 1 / 2)%R.
Proof.
  destruct (diag_set_up 1 2) as [pl0 Hs].
  assert (Hr : legal_reduction exact (fun _ l => fold_right (aadd exact) (a0 exact) l)) by apply fold_right_legal.
  destruct (@C95_cg_solves lg2 _ (diag_calls 1 2) ex_st pl0 ones_store (fun _ => 1%R) lg2_ok Hr Hs (@diag_real 1 2) (diag_some 1 2) (diag_x 1 2) (diag_b 1 2)
    (@diag_symmetric 1 2) ltac:(apply diag_positive; lra)) as (k & x & _ & H & Hx).
  exists pl0, k, x. split; [exact Hs|]. split; [|split].
  - destruct (@C54_cg_runs _ exact lg2 (fun _ l => fold_right (aadd exact) (a0 exact) l) (diag_calls 1 2) ex_st pl0 ones_store k lg2_ok Hs (diag_some 1 2)) as (_ & (c & st' & s' & He) & _).
    exists c, st', s'. apply C95_same_results; [|exact He]. intros y lns st1 _ j o i _ _. apply Nat.mod_upper_bound. lia.
  - intros c st' s' He. exact (H _ _ _ _ _ He).
  - rewrite diag_unknowns in Hx. change (apply_op [u0; u1]) with (app_op [u0; u1]) in Hx.
    assert (E0 := Hx u0 ltac:(left; reflexivity)). assert (E1 := Hx u1 ltac:(right; left; reflexivity)).
    rewrite diag_app0 in E0. rewrite diag_app1 in E1. split; lra.
Qed.

(** Two operations on 5 and 1 points, 4 shards: the library's functor gives shard 2 point 4 of the first operation and
    leaves shard 3 without work; shard 3 issues everything first, shard 0 last. *)
Definition bump (l : nat) : step nat nat := mk_step l [l] (fun v => match v with [x] => S x | _ => 0 end).
Definition two_ops : list (op nat nat) :=
  [ mk_op (map (fun l => [bump l]) (seq 0 5)) (fun l => l < 5) (fun l => l < 5);
    mk_op [[mk_step 9 [0; 4] (fun v => fold_right Nat.add 0 v)]] (fun l => l < 5) (fun l => l = 9) ].
Definition blocks (k i : nat) : nat := match k with 0 => i / 2 | _ => 0 end.
Example C95_example_shards :
  blocking 4 blocks two_ops /\ assigned 4 blocks two_ops /\
  map (fun s => length (points_of (blocks 0) s (o_tasks (nth 0 two_ops (mk_op [] (fun _ => False) (fun _ => False)))))) (seq 0 4) = [2; 2; 1; 0] /\
  (exists tr, replicated_execution 4 blocks two_ops tr) /\
  forall tr, replicated_execution 4 blocks two_ops tr -> run Nat.eq_dec (map snd tr) (fun _ => 1) 9 = 4.
Proof.
  assert (Hb : blocking 4 blocks two_ops).
  { intros [|[|[|k]]] o i Hk Hi; cbn in Hk; try discriminate; injection Hk as <-; cbn in Hi.
    - do 5 (destruct i as [|i]; [reflexivity|]). lia.
    - destruct i as [|i]; [reflexivity|lia]. }
  assert (Ha : assigned 4 blocks two_ops).
  { apply (@C95_functor_assigns nat nat 4 two_ops); [|exact Hb]. intros o [<-|[<-|[]]] _; cbn; unfold sizes_ok; lia. }
  split; [exact Hb|]. split; [exact Ha|]. split; [reflexivity|].
  assert (Hwd : Forall (@well_declared nat nat) two_ops).
  { constructor; [|constructor; [|constructor]].
    - intros t st Ht Hst. cbn [o_tasks two_ops] in Ht. apply in_map_iff in Ht. destruct Ht as (l & <- & Hl). apply in_seq in Hl.
      destruct Hst as [<-|[]]. cbn. split; [lia|]. intros l' [<-|[]]. left. lia.
    - intros t st [<-|[]] [<-|[]]. cbn. split; [reflexivity|]. intros l' [<-|[<-|[]]]; left; lia. }
  destruct (C95_same_executions Ha) as [G1 G2]. split.
  - destruct (execution_exists two_ops) as [tr Htr]. destruct (G2 tr Htr) as (tr' & Hr & _). exists tr'. exact Hr.
  - intros tr Hr. destruct (async_program_order Nat.eq_dec Hwd (G1 tr Hr)) as (trs & HF & E).
    rewrite <- untagged_steps, E. inversion HF as [|o1 t1 os1 trs1 H1 HF1]; subst. inversion HF1 as [|o2 t2 os2 trs2 H2 HF2]; subst. inversion HF2; subst.
    cbn [concat]. rewrite app_nil_r, run_app.
    rewrite (interleave_deterministic Nat.eq_dec H2).
    + assert (G : forall l, run Nat.eq_dec t1 (fun _ => 1) l = run Nat.eq_dec (concat (map (fun l => [bump l]) (seq 0 5))) (fun _ => 1) l).
      { apply (interleave_deterministic Nat.eq_dec H1). intros i j ti tj l Hij Hi Hj Hw. cbn [o_tasks] in Hi, Hj.
        assert (P : forall i t, nth_error (map (fun l => [bump l]) (seq 0 5)) i = Some t -> t = [bump i]).
        { intros i' t Ht. do 5 (destruct i' as [|i']; [cbn in Ht; congruence|]). destruct i'; discriminate. }
        apply P in Hi. apply P in Hj. subst ti tj. destruct Hw as (st & [<-|[]] & <-).
        split; [intros (st & [<-|[]] & E2); cbn in E2; congruence|intros (st & [<-|[]] & [E2|[]]); cbn in E2; congruence]. }
      cbn [o_tasks concat app]. unfold run at 1. cbn [fold_left]. unfold exec. cbn [tgt rds fn map]. rewrite upd_same, !G. reflexivity.
    + intros i j ti tj l Hij Hi Hj _. cbn [o_tasks] in Hi, Hj. destruct i as [|[|i]], j as [|[|j]]; cbn in Hi, Hj; try discriminate; congruence.
Qed.
