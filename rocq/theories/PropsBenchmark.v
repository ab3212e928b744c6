(** PropsBenchmark: property C70: what the benchmark program runs and reports. *)
From Coq Require Import Reals Lra.
From Verif Require Import Base Index IndexSpec IndexFacts Outcome Sched Async Arith Launch Vector PartitionSpec VectorFacts LaunchFacts Matrix MatrixSpec MatrixFacts
  MatvecFacts Builder BuilderFacts Exec ExactSum LinAlg CGSpec CGMath Planner PlannerFacts PlannerSetup Solvers PropsVector PropsMatrix PropsPlanner
  StencilSpec StencilSize StencilSizeFacts StencilFill StencilFillFacts StencilLaunch StencilCreate ExampleSystems PropsSolver SolverFacts PropsCG PropsCGConv PropsStencil
  PropsConvolution StencilPositive PropsStencilCG PropsTrace Benchmark.
Set Implicit Arguments.

(** ** The driver for any solver *)
Section Driver.
Variables T X : Type.
Variable new : M T X.
Variable step : X -> M T X.
Variable steps : nat -> X -> M T X.
Hypothesis steps_0 : forall c, steps 0 c = ret c.
Hypothesis steps_S : forall k c, steps (S k) c = bind (steps k c) step.
Variable red : nat -> list T -> T.
Variable good : X -> Prop.
Hypothesis steps_sim : forall n a b, good a -> good b -> sim red (fun a b => good a /\ good b) (steps n a) (steps n b).

Lemma bind_ok_iff (A B : Type) (m : M T A) (f : A -> M T B) st y l s : bind m f st = Ok (y, l, s) <-> exists x l1 s1 l2, m st = Ok (x, l1, s1) /\ f x s1 = Ok (y, l2, s) /\ l = l1 ++ l2.
Proof.
  unfold bind. split.
  - destruct (m st) as [[[x l1] s1]| | |]; try discriminate. cbn [obind]. destruct (f x s1) as [[[y' l2] s2]| | |] eqn:E; try discriminate. cbn [obind]. intros H. injection H as <- <- <-. exists x, l1, s1, l2. auto.
  - intros (x & l1 & s1 & l2 & -> & E & ->). cbn [obind]. rewrite E. reflexivity.
Qed.
Lemma steps_add n j c st d lns st' : steps (n + j) c st = Ok (d, lns, st') <-> exists c1 l1 s1 l2, steps j c st = Ok (c1, l1, s1) /\ steps n c1 s1 = Ok (d, l2, st') /\ lns = l1 ++ l2.
Proof.
  revert d lns st'. induction n as [|n IH]; intros d lns st'; cbn [Nat.add].
  - split; [intros H; exists d, lns, st', []; rewrite steps_0, app_nil_r; auto|]. intros (c1 & l1 & s1 & l2 & H1 & H2 & ->). rewrite steps_0 in H2. injection H2 as <- <- <-. rewrite app_nil_r. exact H1.
  - rewrite steps_S, bind_ok_iff. split.
    + intros (x & l1 & s1 & l2 & H1 & H2 & ->). apply IH in H1. destruct H1 as (c1 & k1 & t1 & k2 & H3 & H4 & ->). exists c1, k1, t1, (k2 ++ l2). split; [exact H3|]. split; [|rewrite app_assoc; reflexivity].
      rewrite steps_S. apply bind_ok_iff. exists x, k2, s1, l2. auto.
    + intros (c1 & l1 & s1 & l2 & H1 & H2 & ->). rewrite steps_S in H2. apply bind_ok_iff in H2. destruct H2 as (x & k1 & t1 & k2 & H3 & H4 & ->).
      exists x, (l1 ++ k1), t1, k2. split; [|split; [exact H4|rewrite app_assoc; reflexivity]]. apply IH. exists c1, l1, s1, k1. auto.
Qed.
Lemma trace_body_steps n : forall c st r, steps n c st = Ok r -> trace_body step n c st = Ok r.
Proof.
  induction n as [|n IH]; intros c st [[d l] s] H; [rewrite steps_0 in H; exact H|].
  replace (S n) with (n + 1) in H by lia. apply steps_add in H. destruct H as (c1 & l1 & s1 & l2 & H1 & H2 & ->). rewrite steps_S, steps_0 in H1.
  apply bind_ok_iff in H1. destruct H1 as (x & k1 & t1 & k2 & H3 & H4 & ->). injection H3 as <- <- <-. cbn [trace_body]. apply bind_ok_iff. exists c1, k2, s1, l2. split; [exact H4|]. split; [apply IH; exact H2|reflexivity].
Qed.
Lemma run_traces_ok m : forall n c st, good c -> accepted (steps (n * m) c) st -> exists d ls st',
  run_traces step n m c st = Ok (d, ls, st') /\ length ls = n /\ steps (n * m) c st = Ok (d, concat ls, st') /\ good d /\
  (forall t, In t ls -> exists c' s' d' e', good c' /\ steps m c' s' = Ok (d', t, e')).
Proof.
  induction n as [|n IH]; intros c st Hg [[[d l] st'] H].
  - cbn [Nat.mul] in *. rewrite steps_0 in *. exists c, [], st. repeat split; auto. intros t [].
  - cbn [Nat.mul] in H. replace (m + n * m) with (n * m + m) in H by lia. apply steps_add in H. destruct H as (c1 & l1 & s1 & l2 & H1 & H2 & ->).
    assert (G1 := steps_sim m Hg Hg st st). rewrite H1 in G1. destruct G1 as ((G1 & _) & _).
    destruct (IH c1 s1 G1 (ex_intro _ _ H2)) as (d' & ls & e' & R1 & R2 & R3 & R4 & R5).
    exists d', (l1 :: ls), e'. cbn [run_traces]. rewrite (trace_body_steps H1). cbn [obind]. rewrite R1. cbn [obind]. split; [reflexivity|]. split; [cbn; congruence|].
    split; [|split; [exact R4|]].
    + cbn [Nat.mul]. replace (m + n * m) with (n * m + m) by lia. apply steps_add. exists c1, l1, s1, (concat ls). auto.
    + intros t [<-|Ht]; [|apply R5; exact Ht]. exists c, st, c1, s1. auto.
Qed.
Lemma num_traces_ceil it pt : (0 <= it)%Z -> (0 < pt)%Z -> (it + pt <= 2 ^ 64)%Z -> exists n, num_traces it pt = Ok n /\ (it <= n * pt < it + pt)%Z /\ (0 <= n < 2 ^ 64)%Z.
Proof.
  intros H1 H2 H3. unfold num_traces. destruct (Z.eqb_spec pt 0) as [|_]; [lia|].
  assert (E : size_t (size_t (it + pt) - 1) = (it + pt - 1)%Z).
  { unfold size_t. rewrite Zminus_mod_idemp_l. apply Z.mod_small. lia. }
  rewrite E. exists ((it + pt - 1) / pt)%Z. split; [reflexivity|]. assert (D := Z.div_mod (it + pt - 1) pt ltac:(lia)). assert (B := Z.mod_pos_bound (it + pt - 1) pt H2).
  split; [lia|]. split; [apply Z.div_pos; lia|]. apply Z.div_lt_upper_bound; nia.
Qed.
Lemma driver_ok st c0 l0 s0 it pt : new st = Ok (c0, l0, s0) -> good c0 -> (forall k, accepted (steps k c0) s0) ->
  (0 <= it)%Z -> (0 < pt)%Z -> (it + pt <= 2 ^ 64)%Z ->
  exists n c warm timed rep st', (it <= n * pt < it + pt)%Z /\ benchmark new step it pt st = Ok (c, l0, warm, timed, rep, st') /\
    length warm = 5 /\ Z.of_nat (length timed) = Z.max 0 (n - 5) /\
    (forall t1 t2, In t1 (warm ++ timed) -> In t2 (warm ++ timed) -> same_trace red t1 t2) /\
    bind new (steps (Z.to_nat (pt * Z.max 5 n))) st = Ok (c, l0 ++ concat (warm ++ timed), st') /\
    printed_warmup rep = 5%Z /\ printed_timed rep = (if (5 <=? n)%Z then n - 5 else 2 ^ 64 + n - 5)%Z /\
    time_divisor rep = ((pt * printed_timed rep) mod 2 ^ 64)%Z.
Proof.
  intros Hnew Hg Hacc H1 H2 H3. destruct (num_traces_ceil H1 H2 H3) as (n & Hn & Hc & Hr).
  set (m := Z.to_nat pt). set (n2 := Z.to_nat (n - 5)).
  destruct (@run_traces_ok m 5 c0 s0 Hg (Hacc (5 * m))) as (c1 & warm & s1 & W1 & W2 & W3 & W4 & W5).
  assert (A2 : accepted (steps (n2 * m) c1) s1).
  { destruct (Hacc (n2 * m + 5 * m)) as [[[d l] s'] Hs]. apply steps_add in Hs. destruct Hs as (c1' & l1 & s1' & l2 & S1 & S2 & _). rewrite W3 in S1. injection S1 as <- _ <-. eexists. exact S2. }
  destruct (@run_traces_ok m n2 c1 s1 W4 A2) as (c2 & timed & s2 & T1 & T2 & T3 & T4 & T5).
  exists n, c2, warm, timed, (mk_report 5 (size_t (n - 5)) (size_t (pt * size_t (n - 5)))), s2.
  split; [exact Hc|]. split.
  { unfold benchmark. rewrite Hnew. cbn [obind]. rewrite Hn. cbn [obind]. unfold warmup_traces. change (Z.to_nat 5) with 5%nat. fold m. rewrite W1. cbn [obind]. fold n2. rewrite T1. reflexivity. }
  split; [exact W2|]. split; [rewrite T2; unfold n2; lia|]. split.
  { intros t1 t2 I1 I2. assert (G : forall t, In t (warm ++ timed) -> exists c' s' d' e', good c' /\ steps m c' s' = Ok (d', t, e')) by (intros t Ht; apply in_app_or in Ht; destruct Ht; auto).
    destruct (G t1 I1) as (a & sa & da & ea & Ga & Ea). destruct (G t2 I2) as (b & sb & db & eb & Gb & Eb). assert (Sm := steps_sim m Ga Gb sa sb). rewrite Ea, Eb in Sm. apply Sm. }
  split.
  { apply bind_ok_iff. exists c0, l0, s0, (concat (warm ++ timed)). split; [exact Hnew|]. split; [|reflexivity].
    replace (Z.to_nat (pt * Z.max 5 n)) with (n2 * m + 5 * m)%nat by (unfold n2, m; nia). apply steps_add. exists c1, (concat warm), s1, (concat timed). rewrite concat_app. auto. }
  cbn [printed_warmup printed_timed time_divisor]. split; [reflexivity|]. split; [|reflexivity].
  unfold size_t. destruct (Z.leb_spec 5 n).
  - apply Z.mod_small. lia.
  - symmetry. apply Zmod_unique with (q := (-1)%Z); lia.
Qed.
End Driver.

(** ** C70.  For the command-line values -it [it] and -pt [pt] the program runs n traces, n the least number with n * pt >= it, but at least the
    five warm-up traces; every trace issues the same operations; the whole run is that of a solver stepped
    pt * max(5, n) times, at least [it] times.  The printed number of timed traces is right when n >= 5 and otherwise off by 2^64.
    With -pt 0 the behaviour is undefined. *)
Theorem C70_per_trace_zero : forall (T X : Type) (new : M T X) step it st, accepted new st -> benchmark new step it 0 st = UB.
Proof. intros T X new step it st [[[c l] s] H]. unfold benchmark. rewrite H. reflexivity. Qed.
Theorem C70_cg_benchmark : forall (T : Type) (A : arith T) lg red (cs : list (setup_call T)) st pl0 (it pt : Z),
  legion_ok lg -> set_up lg cs st pl0 -> 0 < length (sols_of cs) -> (0 <= it)%Z -> (0 < pt)%Z -> (it + pt <= 2 ^ 64)%Z ->
  exists n c l0 warm timed rep st', (it <= n * pt < it + pt)%Z /\
    benchmark (cg_new A lg red pl0) (cg_step A lg red) it pt st = Ok (c, l0, warm, timed, rep, st') /\
    length warm = 5 /\ Z.of_nat (length timed) = Z.max 0 (n - 5) /\
    (forall t1 t2, In t1 (warm ++ timed) -> In t2 (warm ++ timed) -> same_trace red t1 t2) /\
    cg_run A lg red pl0 (Z.to_nat (pt * Z.max 5 n)) st = Ok (c, l0 ++ concat (warm ++ timed), st') /\
    printed_warmup rep = 5%Z /\ printed_timed rep = (if (5 <=? n)%Z then n - 5 else 2 ^ 64 + n - 5)%Z /\
    time_divisor rep = ((pt * printed_timed rep) mod 2 ^ 64)%Z.
Proof.
  intros T A lg red cs st pl0 it pt Hlg Hs Hl H1 H2 H3.
  assert (Acc : forall m, accepted (cg_run A lg red pl0 m) st) by (intros m; exact (proj1 (@C54_cg_runs T A lg red cs st pl0 (fun _ => a0 A) m Hlg Hs Hl))).
  destruct (Acc 0) as [[[c0 l0] s0] E0]. unfold cg_run in E0. apply ok_bind in E0. destruct E0 as (c & l & s & l' & E & _).
  destruct (@driver_ok T (cg T) (cg_new A lg red pl0) (cg_step A lg red) (cg_steps A lg red) (fun _ => eq_refl) (fun _ _ => eq_refl) red (good_cg (cg_pl c))) with (st := st) (c0 := c) (l0 := l) (s0 := s) (it := it) (pt := pt)
    as (n & d & warm & timed & rep & st' & K); try assumption.
  - intros m a b Ha Hb. apply sim_cg_steps. split; assumption.
  - eapply cg_new_good. exact E.
  - intros k. destruct (Acc k) as [[[d ld] sd] Ek]. unfold cg_run in Ek. apply ok_bind in Ek. destruct Ek as (c' & l1 & s1 & l2 & E1 & E2). rewrite E in E1. injection E1 as <- _ <-. eexists. exact E2.
  - exists n, d, l, warm, timed, rep, st'. exact K.
Qed.
Theorem C70_bicgstab_benchmark : forall (T : Type) (A : arith T) lg red (cs : list (setup_call T)) st pl0 (it pt : Z),
  legion_ok lg -> set_up lg cs st pl0 -> 0 < length (sols_of cs) -> (0 <= it)%Z -> (0 < pt)%Z -> (it + pt <= 2 ^ 64)%Z ->
  exists n c l0 warm timed rep st', (it <= n * pt < it + pt)%Z /\
    benchmark (bicg_new A lg pl0) (bicg_step A lg red) it pt st = Ok (c, l0, warm, timed, rep, st') /\
    length warm = 5 /\ Z.of_nat (length timed) = Z.max 0 (n - 5) /\
    (forall t1 t2, In t1 (warm ++ timed) -> In t2 (warm ++ timed) -> same_trace red t1 t2) /\
    bicg_run A lg red pl0 (Z.to_nat (pt * Z.max 5 n)) st = Ok (c, l0 ++ concat (warm ++ timed), st') /\
    printed_warmup rep = 5%Z /\ printed_timed rep = (if (5 <=? n)%Z then n - 5 else 2 ^ 64 + n - 5)%Z /\
    time_divisor rep = ((pt * printed_timed rep) mod 2 ^ 64)%Z.
Proof.
  intros T A lg red cs st pl0 it pt Hlg Hs Hl H1 H2 H3.
  assert (Acc : forall m, accepted (bicg_run A lg red pl0 m) st) by (intros m; exact (proj1 (@C54_bicgstab_runs T A lg red cs st pl0 (fun _ => a0 A) m Hlg Hs Hl))).
  destruct (Acc 0) as [[[c0 l0] s0] E0]. unfold bicg_run in E0. apply ok_bind in E0. destruct E0 as (c & l & s & l' & E & _).
  destruct (@driver_ok T (bicg T) (bicg_new A lg pl0) (bicg_step A lg red) (bicg_steps A lg red) (fun _ => eq_refl) (fun _ _ => eq_refl) red (good_bicg (bi_pl c))) with (st := st) (c0 := c) (l0 := l) (s0 := s) (it := it) (pt := pt)
    as (n & d & warm & timed & rep & st' & K); try assumption.
  - intros m a b Ha Hb. apply sim_bicg_steps. split; assumption.
  - eapply bicg_new_good. exact E.
  - intros k. destruct (Acc k) as [[[d ld] sd] Ek]. unfold bicg_run in Ek. apply ok_bind in Ek. destruct Ek as (c' & l1 & s1 & l2 & E1 & E2). rewrite E in E1. injection E1 as <- _ <-. eexists. exact E2.
  - exists n, d, l, warm, timed, rep, st'. exact K.
Qed.
(** solver 3 uses restart length 10 (BenchmarkStencil.cpp:318); the theorem holds for any *)
Theorem C70_gmres_benchmark : forall (T : Type) (A : arith T) lg red (cs : list (setup_call T)) st pl0 (restart : nat) (it pt : Z),
  legion_ok lg -> set_up lg cs st pl0 -> 0 < length (sols_of cs) -> (0 <= it)%Z -> (0 < pt)%Z -> (it + pt <= 2 ^ 64)%Z ->
  exists n c l0 warm timed rep st', (it <= n * pt < it + pt)%Z /\
    benchmark (gmres_new A lg pl0 restart) (gmres_step A lg red) it pt st = Ok (c, l0, warm, timed, rep, st') /\
    length warm = 5 /\ Z.of_nat (length timed) = Z.max 0 (n - 5) /\
    (forall t1 t2, In t1 (warm ++ timed) -> In t2 (warm ++ timed) -> same_trace red t1 t2) /\
    gmres_run A lg red pl0 restart (Z.to_nat (pt * Z.max 5 n)) st = Ok (c, l0 ++ concat (warm ++ timed), st') /\
    printed_warmup rep = 5%Z /\ printed_timed rep = (if (5 <=? n)%Z then n - 5 else 2 ^ 64 + n - 5)%Z /\
    time_divisor rep = ((pt * printed_timed rep) mod 2 ^ 64)%Z.
Proof.
  intros T A lg red cs st pl0 r it pt Hlg Hs Hl H1 H2 H3.
  assert (Acc : forall m, accepted (gmres_run A lg red pl0 r m) st) by (intros m; exact (proj1 (@C54_gmres_runs T A lg red cs st pl0 (fun _ => a0 A) r m Hlg Hs Hl))).
  destruct (Acc 0) as [[[c0 l0] s0] E0]. unfold gmres_run in E0. apply ok_bind in E0. destruct E0 as (c & l & s & l' & E & _).
  destruct (@driver_ok T (gmres T) (gmres_new A lg pl0 r) (gmres_step A lg red) (gmres_steps A lg red) (fun _ => eq_refl) (fun _ _ => eq_refl) red (good_gmres (gm_pl c) r)) with (st := st) (c0 := c) (l0 := l) (s0 := s) (it := it) (pt := pt)
    as (n & d & warm & timed & rep & st' & K); try assumption.
  - intros m a b Ha Hb. apply sim_gmres_steps. split; assumption.
  - eapply gmres_new_good. exact E.
  - intros k. destruct (Acc k) as [[[d ld] sd] Ek]. unfold gmres_run in Ek. apply ok_bind in Ek. destruct Ek as (c' & l1 & s1 & l2 & E1 & E2). rewrite E in E1. injection E1 as <- _ <-. eexists. exact E2.
  - exists n, d, l, warm, timed, rep, st'. exact K.
Qed.

(** ** Identical copies: CG on several copies of one system with equal right-hand sides needs no more steps than on one copy. *)
Section Quotient.
Variable P : Type.
Variables U H : list P.
Variable a : P -> P -> R.
Variables x0 b : P -> R.
Variable sg : P -> P.
Variable k : R.
Definition even (f : P -> R) : Prop := forall u, In u U -> f (sg u) = f u.
Hypothesis dec : forall u v : P, {u = v} + {u <> v}.
Hypothesis Hk : (k <> 0)%R.
Hypothesis HndH : NoDup H.
Hypothesis Hsum : forall f, even f -> Rsum f U = (k * Rsum f H)%R.
Hypothesis Happ : forall f, even f -> even (app_op U a f).
Hypothesis Hb : even b.
Hypothesis Hsym : symmetric U a.
Hypothesis Hpd : positive_definite U a.
Notation it n := (cg_iter U a x0 b n).
Lemma even_iter n : even (it_r (it n)) /\ even (it_p (it n)).
Proof.
  induction n as [|n [I1 I2]]; [split; exact Hb|]. assert (Hr : even (it_r (it (S n)))).
  { intros u Hu. cbn [cg_iter cg_next it_r]. rewrite (I1 u Hu), (Happ I2 u Hu). reflexivity. }
  split; [exact Hr|]. intros u Hu. specialize (Hr u Hu). cbn [cg_iter cg_next it_r it_p] in *. rewrite Hr, (I2 u Hu). reflexivity.
Qed.
Lemma ip_quotient f g : even f -> even g -> ip U f g = (k * ip H f g)%R.
Proof. intros Hf Hg. unfold ip. apply Hsum. intros u Hu. rewrite (Hf u Hu), (Hg u Hu). reflexivity. Qed.
Lemma terminates_quotient : exists n, n <= length H /\ ip U (it_r (it n)) (it_r (it n)) = 0%R /\ forall j, j < n -> ip U (it_r (it j)) (it_r (it j)) <> 0%R.
Proof.
  assert (G : forall m, (exists n, n < m /\ ip U (it_r (it n)) (it_r (it n)) = 0%R /\ forall j, j < n -> ip U (it_r (it j)) (it_r (it j)) <> 0%R) \/ (forall j, j < m -> ip U (it_r (it j)) (it_r (it j)) <> 0%R)).
  { induction m as [|m [IH|IH]].
    - right. intros; lia.
    - left. destruct IH as [n [H1 H2]]. exists n. split; [lia|exact H2].
    - destruct (Req_EM_T (ip U (it_r (it m)) (it_r (it m))) 0) as [E|E].
      + left. exists m. split; [lia|]. split; [exact E|exact IH].
      + right. intros j Hj. destruct (Nat.eq_dec j m) as [->|]; [exact E|apply IH; lia]. }
  destruct (G (S (length H))) as [[n [H1 H2]]|Hne]; [exists n; split; [lia|exact H2]|]. exfalso.
  assert (Hi := inv_all x0 b Hsym Hpd Hne).
  assert (O : forall m, m <= S (length H) -> orthogonal H (map (fun j => it_r (it j)) (seq (S (length H) - m) m))).
  { induction m as [|m IH]; intros Hm; [exact I|]. cbn [seq map orthogonal]. split; [|split].
    - intros E. apply (Hne (S (length H) - S m)); [lia|]. rewrite ip_quotient by apply even_iter. rewrite E. ring.
    - intros g Hg. apply in_map_iff in Hg. destruct Hg as [j [<- Hj]]. apply in_seq in Hj. assert (E := inv_rr Hi). specialize (E (S (length H) - S m) j ltac:(lia) ltac:(lia)).
      rewrite ip_quotient in E by apply even_iter. apply Rmult_integral in E. destruct E as [E|E]; [contradiction|exact E].
    - replace (S (S (length H) - S m)) with (S (length H) - m)%nat by lia. apply IH. lia. }
  specialize (O (S (length H)) (le_n _)). apply (orthogonal_length dec) in O; [|exact HndH]. rewrite map_length, seq_length in O. lia.
Qed.
End Quotient.

Lemma nodup_app_l (X : Type) (l l' : list X) : NoDup (l ++ l') -> NoDup l.
Proof. induction l as [|x l IH]; intros H; [constructor|]. inversion H as [|? ? H1 H2]. constructor; [intros Hx; apply H1, in_or_app; left; exact Hx|apply IH; exact H2]. Qed.
(** ** C70 (exact arithmetic).  [k] copies of a symmetric positive stencil system with equal right-hand sides: any number of steps larger than the
    number of grid points leaves every entry of every solution vector undefined (0/0). *)
Theorem C70_copies_overrun : forall ltT (o : IndexOrder) (b : rect) (offs : list (point * R)) (lg : legion) red (linear : bool)
    (m : matrix (option R)) (sp k : nat) (cs : list (setup_call (option R))) st pl0 s (f : point -> R) (j : nat),
  lo b <> [] -> nonempty_box b -> offsets_dim b offs -> symmetric_stencil b offs -> positive_stencil o b offs ->
  legion_ok lg -> legal_reduction exact red -> set_up lg cs st pl0 ->
  grid_space linear o b (is_points lg sp) -> stencil_matrix exact ltT o b (real_offsets offs) sp linear m ->
  1 <= k -> length (sols_of cs) = k -> (forall v, In v (sols_of cs ++ rhss_of cs) -> pv_space v = sp) -> mats_of cs = copies k m ->
  (forall v, In v (sols_of cs) -> holds_grid linear o b s v (fun _ => 0%R)) ->
  (forall v, In v (rhss_of cs) -> holds_grid linear o b s v f) ->
  (volume b < Z.of_nat j)%Z ->
  accepted (cg_run exact lg red pl0 j) st /\
  forall c st' s', ends (cg_run exact lg red pl0 j) st s c st' s' -> forall v q, In v (sols_of cs) -> In q (is_points lg sp) -> s' (at_point v q) = None.
Proof.
  intros ltT o b offs lg red linear m sp k cs st pl0 s f j Hlo Hn Hd Hsy Hpo Hlg Hred Hs Hg Hm Hk1 Hk Hsp Hmat Hx Hb Hj.
  assert (Hwf := nonempty_wf _ Hn).
  assert (Hsp1 : forall v, In v (sols_of cs) -> pv_space v = sp) by (intros v Hv; apply Hsp, in_app_iff; left; exact Hv).
  assert (Hsp2 : forall v, In v (rhss_of cs) -> pv_space v = sp) by (intros v Hv; apply Hsp, in_app_iff; right; exact Hv).
  set (dec := fun q : point => match find (fun p => if point_eq_dec (stored linear o b p) q then true else false) (box_points o b) with Some p => p | None => [] end).
  assert (Dec : forall p, in_box b p -> dec (stored linear o b p) = p).
  { intros p Hp. unfold dec. destruct (find _ (box_points o b)) as [p'|] eqn:F.
    - apply find_some in F. destruct F as [F1 F2]. apply (in_box_points o b _ Hwf) in F1. destruct (point_eq_dec _ _) as [E|]; [|discriminate]. eapply stored_inj; eassumption.
    - exfalso. apply (in_box_points o b _ Hwf) in Hp. apply (find_none _ _ F) in Hp. destruct (point_eq_dec _ _); [discriminate|congruence]. }
  set (bu := fun u : unknown => f (dec (snd u))).
  set (us := unknowns lg cs). set (a := operator cs).
  assert (Up : Permutation us (flat_map (fun i => map (fun p => (i, stored linear o b p)) (box_points o b)) (seq 0 k))) by (eapply unknowns_perm; eassumption).
  assert (Hsym : symmetric us a) by (eapply copies_symmetric; eassumption).
  assert (Hpd : positive_definite us a) by (eapply copies_positive; eassumption).
  set (H := map (fun p => (0, stored linear o b p)) (box_points o b)).
  set (sg := fun u : unknown => (0, snd u)).
  assert (Iu : forall u, In u us -> exists i p, i < k /\ in_box b p /\ u = (i, stored linear o b p)) by (intros u Hu; eapply in_unknowns_copies; eassumption).
  assert (Ui : forall i p, i < k -> in_box b p -> In (i, stored linear o b p) us) by (intros i p Hi Hp; eapply copies_in_unknowns; eassumption).
  destruct (@terminates_quotient _ us H a (fun _ => 0%R) bu sg (INR k) unknown_dec) as (n & N1 & N2 & N3); try assumption.
  - apply not_0_INR. lia.
  - assert (NU : NoDup us) by (apply (@unknowns_nodup _ lg); assumption).
    apply (Permutation_NoDup Up) in NU. destruct k as [|k']; [lia|]. cbn [seq flat_map] in NU. apply nodup_app_l in NU. exact NU.
  - intros g Hg'. rewrite (Rsum_perm _ Up), Rsum_flat_map.
    rewrite (Rsum_ext _ (fun _ => Rsum g H)).
    + rewrite <- (seq_length k 0) at 2. clear. generalize (seq 0 k) as l. induction l as [|i l IH]; [rewrite Rsum_nil; cbn [length INR]; ring|]. rewrite Rsum_cons, IH. cbn [length]. rewrite S_INR. ring.
    + intros i Hi. apply in_seq in Hi. unfold H. rewrite !Rsum_map. apply Rsum_ext. intros p Hp. apply (in_box_points o b _ Hwf) in Hp. symmetry. apply (Hg' (i, stored linear o b p)). apply Ui; [lia|exact Hp].
  - intros g Hg' u Hu. destruct (Iu u Hu) as (i & p & Hi & Hp & ->). unfold sg. cbn [snd].
    assert (E : forall i, i < k -> app_op us a g (i, stored linear o b p) = convolve b offs (component_of o b linear g i) p).
    { intros i' Hi'. exact (@apply_copies ltT o b offs Hlo Hn Hd sp linear m Hm lg Hlg Hg k cs Hk Hsp1 Hmat g i' p Hi' Hp). }
    rewrite !E by lia. unfold convolve. apply Rsum_ext. intros oe _. f_equal. unfold zero_outside. destruct (contains b (padd p (fst oe))) eqn:C; [|reflexivity].
    unfold component_of. apply (Hg' (i, stored linear o b (padd p (fst oe)))). apply Ui; [exact Hi|apply contains_iff; exact C].
  - intros u _. reflexivity.
  - assert (Ln : length H = length (box_points o b)) by apply map_length. assert (Lv := box_points_length o b Hwf).
    destruct (@C39_step_after_convergence lg red cs st pl0 s (fun _ => 0%R) bu n j Hlg Hred Hs) as [A1 A2].
    + intros m' d r Hin. rewrite Hmat in Hin. unfold copies in Hin. apply in_map_iff in Hin. destruct Hin as [i [E _]]. injection E as <- <- <-. exact (stencil_values Hlo Hn Hd Hm).
    + lia.
    + intros i v q Hv Hq. rewrite (Hsp1 v (nth_error_In _ _ Hv)) in Hq. apply Hg in Hq. destruct Hq as [p [Hp ->]]. exact (Hx v (nth_error_In _ _ Hv) p Hp).
    + intros i v q Hv Hq. rewrite (Hsp2 v (nth_error_In _ _ Hv)) in Hq. apply Hg in Hq. destruct Hq as [p [Hp ->]]. rewrite (Hb v (nth_error_In _ _ Hv) p Hp). unfold bu. cbn [fst snd]. rewrite Dec by exact Hp. reflexivity.
    + intros i Hi. apply (@defined_while_nonzero _ us a (fun _ => 0%R) bu Hsym Hpd n N3). exact Hi.
    + apply ip_zero. exact N2.
    + eapply Nat.le_lt_trans; [exact N1|]. eapply Nat.le_lt_trans; [apply Nat.eq_le_incl; exact Ln|]. lia.
    + split; [exact A1|]. intros c st' s' He v q Hv Hq. apply (A2 c st' s' He v q Hv). rewrite (Hsp1 v Hv). exact Hq.
Qed.
(** The benchmark program: both right-hand sides are filled with ones.  In exact arithmetic, the program run with more iterations than grid points ends
    with undefined solution vectors. *)
Theorem C70_benchmark_overrun : forall ltT lg red (dim : nat) (nx ny nz : Z) (sol sol1 rhs rhs1 : pvec) (sp pt : nat) (m : matrix (option R)) st s (f : point -> R) (it per : Z),
  let b := benchmark_box dim nx ny nz in
  1 <= dim <= 4 -> (1 <= nx)%Z -> (1 <= ny)%Z -> (1 <= nz)%Z ->
  legion_ok lg -> legal_reduction exact red ->
  (forall q, In q (is_points lg sp) <-> exists k, (0 <= k < volume b)%Z /\ q = [k]) ->
  stencil_matrix exact ltT ROW_MAJOR b (real_offsets (benchmark_offsets dim)) sp true m ->
  (forall v, In v [sol; sol1; rhs; rhs1] -> constructed lg v /\ pv_space v = sp /\ pv_part v = pt /\ pv_region v < next_region st) ->
  NoDup (map storage [sol; sol1; rhs; rhs1]) ->
  holds_grid true ROW_MAJOR b s sol (fun _ => 0%R) -> holds_grid true ROW_MAJOR b s sol1 (fun _ => 0%R) ->
  holds_grid true ROW_MAJOR b s rhs f -> holds_grid true ROW_MAJOR b s rhs1 f ->
  (0 <= it)%Z -> (0 < per)%Z -> (it + per <= 2 ^ 64)%Z -> (volume b < it)%Z ->
  exists pl0 c l0 warm timed rep st', do_calls lg (new_planner (option R)) (benchmark_calls sol sol1 rhs rhs1 m) = Ok pl0 /\
    benchmark (cg_new exact lg red pl0) (cg_step exact lg red) it per st = Ok (c, l0, warm, timed, rep, st') /\
    forall s', launches_end (l0 ++ concat (warm ++ timed)) s s' -> forall v q, In v [sol; sol1] -> In q (is_points lg sp) -> s' (at_point v q) = None.
Proof.
  intros ltT lg red dim nx ny nz sol sol1 rhs rhs1 sp pt m st s f it per b Hdim Hx Hy Hz Hlg Hred Hpts Hm Hv Hnd S0 S1 R0 R1 H1 H2 H3 H4.
  destruct (benchmark_nonempty dim Hx Hy Hz) as [Hn Hlo]. fold b in Hn, Hlo.
  assert (Hd : offsets_dim b (benchmark_offsets dim)) by apply benchmark_dim.
  assert (Hg := linear_grid ROW_MAJOR (is_points lg sp) Hn Hpts).
  destruct (stencil_matrix_ok Hlo Hn Hd Hm lg Hg) as [M1 M2].
  destruct (@benchmark_set_up _ lg sol sol1 rhs rhs1 m st sp pt Hv Hnd M1 M2) as [pl0 Hs].
  destruct (@C70_cg_benchmark _ exact lg red _ st pl0 it per Hlg Hs) as (n & c & l0 & warm & timed & rep & st' & Hc & Hb & _ & _ & _ & Hrun & _); [cbn; lia|assumption..|].
  exists pl0, c, l0, warm, timed, rep, st'. split; [apply Hs|]. split; [exact Hb|]. intros s' He v q Hin Hq.
  destruct (@C70_copies_overrun ltT ROW_MAJOR b (benchmark_offsets dim) lg red true m sp 2 (benchmark_calls sol sol1 rhs rhs1 m) st pl0 s f (Z.to_nat (per * Z.max 5 n))) as [_ K]; try assumption.
  - apply benchmark_symmetric.
  - apply C62_dominant_stencil_positive; [exact Hn|exact Hd|apply benchmark_dominant].
  - lia.
  - reflexivity.
  - intros w Hw. apply Hv. exact Hw.
  - reflexivity.
  - cbn. intros w [<-|[<-|[]]]; assumption.
  - cbn. intros w [<-|[<-|[]]]; assumption.
  - nia.
  - apply (K c st' s'); [|exact Hin|exact Hq]. exists (l0 ++ concat (warm ++ timed)). split; [exact Hrun|exact He].
Qed.
(** the program's default values: -dim 1 -nx 16 -it 20 -pt 1 *)
Example C70_default_example : (volume (benchmark_box 1 16 16 16) < 20)%Z /\ exists n, num_traces 20 1 = Ok n /\ n = 20%Z.
Proof. split; [reflexivity|]. exists 20%Z. split; reflexivity. Qed.
(** -it 3 prints 18446744073709551614 timed traces *)
Example C70_wrap_example : forall T (A : arith T) lg red cs st pl0, legion_ok lg -> set_up lg cs st pl0 -> 0 < length (sols_of cs) ->
  exists r, benchmark (cg_new A lg red pl0) (cg_step A lg red) 3 1 st = Ok r /\ printed_timed (snd (fst r)) = 18446744073709551614%Z.
Proof.
  intros T A lg red cs st pl0 Hlg Hs Hl. destruct (@C70_cg_benchmark T A lg red cs st pl0 3 1 Hlg Hs Hl) as (n & c & l0 & warm & timed & rep & st' & Hc & Hb & _ & _ & _ & _ & _ & Hp & _); [lia..|].
  eexists. split; [exact Hb|]. cbn [fst snd]. rewrite Hp. assert (n = 3)%Z as -> by lia. reflexivity.
Qed.
