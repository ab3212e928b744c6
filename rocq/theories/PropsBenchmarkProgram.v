(** PropsBenchmarkProgram: property C89 (the whole benchmark program). *)
From Coq Require Import Reals Lra.
From Verif Require Import Base Index IndexSpec IndexFacts Outcome Sched Async Arith Launch Vector PartitionSpec VectorFacts LaunchFacts Matrix MatrixSpec MatrixFacts
  MatvecFacts Builder BuilderFacts Exec ExactSum LinAlg CGSpec CGMath Planner PlannerFacts PlannerSetup Solvers PropsVector PropsMatrix PropsPlanner
  StencilSpec StencilSize StencilSizeFacts StencilLaunch StencilCreate ExampleSystems PropsSolver SolverFacts PropsCG PropsCGConv PropsStencil
  PropsConvolution StencilPositive PropsStencilCG PropsTrace Benchmark PropsBenchmark WriteFacts PropsWrites CopiesCG ScalarProg VectorProg PropsTests BenchmarkProgram PropsLaplacian LaplacianCG.
Set Implicit Arguments.

(** a program's own final states satisfy its specification *)
Lemma wp_self T X (m : M T X) Q st (s : store loc T) : wp m Q st s -> wp m (fun x st' s' => ends m st s x st' s') st s.
Proof.
  intros (x & lns & st' & E & G & _). exists x, lns, st'. split; [exact E|]. split; [exact G|]. exists lns. split; [exact E|].
  destruct (some_end lns s) as [s1 [tr [H1 H2]]]. exists tr. split; [exact H1|]. intros l. rewrite <- (launches_end_effect G (ex_intro _ tr (conj H1 H2)) l). apply H2.
Qed.
(** a program that issues the same operations *)
Lemma wp_same_launches T X Y (m : M T X) (m' : M T Y) (Q : X -> ist -> store loc T -> Prop) st s x y lns st' : wp m Q st s -> m st = Ok (x, lns, st') -> m' st = Ok (y, lns, st') ->
  wp m' (fun z st1 s1 => z = y /\ Q x st1 s1) st s.
Proof. intros (x0 & l0 & st0 & E0 & G & HQ) E E'. rewrite E in E0. injection E0 as <- <- <-. exists y, lns, st'. auto. Qed.

(** ** The vectors and the planner *)
Section SetUp.
Variable T : Type.
Variable A : arith T.
Variable lg : legion.
Variable red : nat -> list T -> T.
Hypothesis Hlg : legion_ok lg.
Variable q : nat.
Variable m : matrix T.
Hypothesis Hd : is_disjoint lg q = true.
Hypothesis Hc : is_complete lg q = true.
Hypothesis Hm : matrix_ok lg m.
Hypothesis Hr : match m with COO _ => True | CSR c => part_parent lg q = cs_rows c end.
Definition filled (s : store loc T) (v : pvec) (x : T) : Prop := forall p, In p (is_points lg (part_parent lg q)) -> s (at_point v p) = x.
Lemma wp_filled v op ln c (Q : unit -> ist -> store loc T -> Prop) st s : constructed lg v -> pv_space v = part_parent lg q -> call A lg v op = Ok ln -> op = Fill c \/ (op = ZeroFill /\ c = a0 A) ->
  (forall s', filled s' v c -> (forall w x, pv_region w <> pv_region v -> filled s w x -> filled s' w x) -> Q tt st s') -> wp (issue (call A lg v op)) Q st s.
Proof.
  intros Hv Hsp E Hop HQ. eapply wp_call; [exact Hlg|exact Hv|exact E|]. intros s' E' F. apply HQ.
  - intros p Hp. rewrite <- Hsp in Hp. specialize (E' p Hp). destruct Hop as [->|[-> ->]]; inversion E'; reflexivity.
  - intros w x Hw Hf p Hp. rewrite F; [apply Hf; exact Hp|]. intros p' _ C. unfold at_point in C. injection C as C _. contradiction.
Qed.
(** what the preparation leaves *)
Definition prepared (y : vectors * planner T) (st2 : ist) (s2 : store loc T) : Prop :=
  let vs := fst y in
  (forall v, In v [v_sol vs; v_sol1 vs; v_rhs vs; v_rhs1 vs] -> constructed lg v /\ pv_space v = part_parent lg q /\ pv_part v = q /\ pv_region v < next_region st2) /\
  NoDup (map storage [v_sol vs; v_sol1 vs; v_rhs vs; v_rhs1 vs]) /\ set_up lg (benchmark_calls (v_sol vs) (v_sol1 vs) (v_rhs vs) (v_rhs1 vs) m) st2 (snd y) /\
  filled s2 (v_sol vs) (a0 A) /\ filled s2 (v_sol1 vs) (a0 A) /\ filled s2 (v_rhs vs) (a1 A) /\ filled s2 (v_rhs1 vs) (a1 A).
Lemma wp_prepare st s : wp (prepare A lg m q) prepared st s.
Proof.
  unfold prepare.
  apply wp_bind. apply wp_new_vector; [exact Hd|exact Hc|]. cbn zeta. set (v1 := mk_pvec _ _ _ _ _). intros C1.
  apply wp_bind. change (issue (constant_fill lg v1 (a1 A))) with (issue (call A lg v1 (Fill (a1 A)))). eapply wp_filled; [exact C1|reflexivity|reflexivity|left; reflexivity|]. intros s1 E1 F1.
  apply wp_bind. apply wp_new_vector; [exact Hd|exact Hc|]. cbn zeta. set (v2 := mk_pvec _ _ _ _ _). intros C2.
  apply wp_bind. change (issue (constant_fill lg v2 (a1 A))) with (issue (call A lg v2 (Fill (a1 A)))). eapply wp_filled; [exact C2|reflexivity|reflexivity|left; reflexivity|]. intros s2 E2 F2.
  apply wp_bind. apply wp_new_vector; [exact Hd|exact Hc|]. cbn zeta. set (v3 := mk_pvec _ _ _ _ _). intros C3.
  apply wp_bind. change (issue (zero_fill A lg v3)) with (issue (call A lg v3 ZeroFill)). eapply wp_filled; [exact C3|reflexivity|reflexivity|right; split; reflexivity|]. intros s3 E3 F3.
  apply wp_bind. apply wp_new_vector; [exact Hd|exact Hc|]. cbn zeta. set (v4 := mk_pvec _ _ _ _ _). intros C4.
  apply wp_bind. change (issue (zero_fill A lg v4)) with (issue (call A lg v4 ZeroFill)). eapply wp_filled; [exact C4|reflexivity|reflexivity|right; split; reflexivity|]. intros s4 E4 F4.
  cbn [next_region next_fut] in *. set (st2 := mk_ist _ _).
  assert (R1 : pv_region v1 = next_region st) by reflexivity. assert (R2 : pv_region v2 = S (next_region st)) by reflexivity.
  assert (R3 : pv_region v3 = S (S (next_region st))) by reflexivity. assert (R4 : pv_region v4 = S (S (S (next_region st)))) by reflexivity.
  assert (Hv : forall v, In v [v3; v4; v1; v2] -> constructed lg v /\ pv_space v = part_parent lg q /\ pv_part v = q /\ pv_region v < next_region st2).
  { cbn [In]. intros v [<-|[<-|[<-|[<-|[]]]]]; (split; [assumption|]; split; [reflexivity|]; split; [reflexivity|]; cbn; lia). }
  assert (Hnd : NoDup (map storage [v3; v4; v1; v2])).
  { cbn [map]. unfold storage. repeat constructor; cbn [In]; intuition; match goal with H : (_, _) = (_, _) |- _ => injection H; intros; lia end. }
  destruct (@benchmark_set_up T lg v3 v4 v1 v2 m st2 (part_parent lg q) q Hv Hnd Hm Hr) as [pl Hs].
  apply wp_bind. eapply wp_lift; [exact (proj2 Hs)|]. apply wp_ret. unfold prepared. cbn [fst snd v_sol v_sol1 v_rhs v_rhs1].
  split; [exact Hv|]. split; [exact Hnd|]. split; [exact Hs|].
  split; [apply F4; [lia|exact E3]|]. split; [exact E4|]. split; [apply F4; [lia|]; apply F3; [lia|]; apply F2; [lia|exact E1]|apply F4; [lia|]; apply F3; [lia|exact E2]].
Qed.
Lemma wp_program o (Q : finish -> ist -> store loc T -> Prop) st s : chosen_stencil o <> None ->
  (forall y st2 s2, prepared y st2 s2 ->
     wp (run_solver A lg red (op_solver o) (op_it o) (op_pt o) (snd y)) (fun rep st' s' => Q (Finished (fst y) rep) st' s') st2 s2) ->
  wp (benchmark_program A lg red o m q) Q st s.
Proof.
  intros Hch HK. unfold benchmark_program. destruct (chosen_stencil o) as [bo|]; [|contradiction]. clear Hch bo.
  apply wp_bind. eapply wp_conseq; [apply wp_prepare|]. intros y st2 s2 Hp. apply wp_bind. eapply wp_conseq; [apply (HK y st2 s2 Hp)|]. intros rep st' s' H. apply wp_ret. exact H.
Qed.
End SetUp.

(** Specification of the report: [n] is the number of traces asked for *)
Definition report_for (it pt : Z) (rep : report) : Prop := exists n, (it <= n * pt < it + pt)%Z /\
  printed_warmup rep = 5%Z /\ printed_timed rep = (if (5 <=? n)%Z then n - 5 else 2 ^ 64 + n - 5)%Z /\ time_divisor rep = ((pt * printed_timed rep) mod 2 ^ 64)%Z.
(** the number of steps the program takes *)
Definition steps_for (it pt : Z) (k : nat) : Prop := exists n, (it <= n * pt < it + pt)%Z /\ Z.of_nat k = (pt * Z.max 5 n)%Z.
Lemma steps_for_unique it pt k k' : (0 < pt)%Z -> steps_for it pt k -> steps_for it pt k' -> k = k'.
Proof. intros Hp (n & H1 & H2) (n' & H1' & H2'). assert (n = n') as <- by nia. lia. Qed.

(** ** C89 *)
(** every option has the value given last on the command line, or its default *)
Definition option_value (o : options) (f : flag) : Z :=
  match f with Fdim => op_dim o | Fsolver => op_solver o | Fnx => op_nx o | Fny => op_ny o | Fnz => op_nz o | Fvp => op_pieces o | Fit => op_it o | Fpt => op_pt o end.
Definition default_value (f : flag) : Z := match f with Fdim => 1 | Fsolver => 1 | Fnx => 16 | Fny => 16 | Fnz => 16 | Fvp => 4 | Fit => 20 | Fpt => 1 end%Z.
Theorem C89_options : forall args f,
  (forall before z after, args = before ++ (f, z) :: after -> ~ In f (map fst after) -> option_value (parse_options args) f = z) /\
  (~ In f (map fst args) -> option_value (parse_options args) f = default_value f).
Proof.
  assert (K : forall f after o, ~ In f (map fst after) -> option_value (fold_left set_option after o) f = option_value o f).
  { intros f. induction after as [|[g z] after IH]; intros o H; [reflexivity|]. cbn [fold_left]. rewrite IH by (intros C; apply H; right; exact C).
    assert (N : g <> f) by (intros ->; apply H; left; reflexivity). destruct g, f; try reflexivity; exfalso; apply N; reflexivity. }
  intros args f. split.
  - intros before z after -> H. unfold parse_options. rewrite fold_left_app. cbn [fold_left]. rewrite K by exact H. destruct f; reflexivity.
  - intros H. unfold parse_options. rewrite K by exact H. destruct f; reflexivity.
Qed.
(** -dim outside 1..4: "INVALID DIM", nothing is issued *)
Theorem C89_invalid_dim : forall (T : Type) (A : arith T) lg red o m q st, (op_dim o < 1 \/ 4 < op_dim o)%Z -> benchmark_program A lg red o m q st = Ok (InvalidDim, [], st).
Proof.
  intros T A lg red o m q st H. unfold benchmark_program, chosen_stencil. destruct (Z.leb_spec 1 (op_dim o)); destruct (Z.leb_spec (op_dim o) 4); cbn [andb]; try reflexivity. lia.
Qed.
(** a partition with overlapping or missing pieces (for example no piece at all, -vp 0) is caught by the first vector's assertion *)
Theorem C89_bad_partition : forall (T : Type) (A : arith T) lg red o m q st, (1 <= op_dim o <= 4)%Z -> ~ (partition_disjoint lg q /\ partition_complete lg q) ->
  benchmark_program A lg red o m q st = AssertFail.
Proof.
  intros T A lg red o m q st H Hq. unfold benchmark_program, chosen_stencil. destruct (Z.leb_spec 1 (op_dim o)); destruct (Z.leb_spec (op_dim o) 4); cbn [andb]; try lia.
  unfold bind at 1, prepare, bind at 1, new_vector, bind at 1. cbn [fresh_region obind]. unfold lift at 1, make_vector. destruct (is_disjoint lg q) eqn:D; [|reflexivity]. destruct (is_complete lg q) eqn:C; [|reflexivity].
  exfalso. apply Hq. split; [exact (proj1 (disjoint_all_spec (part_pieces lg q)) D)|exact (proj1 (is_complete_spec lg q) C)].
Qed.
Lemma dim_chosen o : (1 <= op_dim o <= 4)%Z -> chosen_stencil o <> None.
Proof. intros H. unfold chosen_stencil. destruct (Z.leb_spec 1 (op_dim o)); destruct (Z.leb_spec (op_dim o) 4); cbn [andb]; try discriminate; lia. Qed.
(** the driver issues what the solver stepped the right number of times issues *)
Lemma wp_driven T X (new : M T X) step (run : nat -> M T X) it pt (Q : option report -> ist -> store loc T -> Prop) st s :
  (exists n c l0 warm timed rep st', (it <= n * pt < it + pt)%Z /\
    benchmark new step it pt st = Ok (c, l0, warm, timed, rep, st') /\ run (Z.to_nat (pt * Z.max 5 n)) st = Ok (c, l0 ++ concat (warm ++ timed), st') /\
    printed_warmup rep = 5%Z /\ printed_timed rep = (if (5 <=? n)%Z then n - 5 else 2 ^ 64 + n - 5)%Z /\ time_divisor rep = ((pt * printed_timed rep) mod 2 ^ 64)%Z) ->
  (0 < pt)%Z -> (forall k, exists R, wp (run k) R st s) ->
  (forall k c rep st' s', steps_for it pt k -> report_for it pt rep -> ends (run k) st s c st' s' -> Q (Some rep) st' s') ->
  wp (driven new step it pt) Q st s.
Proof.
  intros (n & c & l0 & warm & timed & rep & st' & H1 & H2 & H3 & H4 & H5 & H6) Hp W HQ. set (k := Z.to_nat (pt * Z.max 5 n)) in *. destruct (W k) as [R Wk].
  assert (E : driven new step it pt st = Ok (Some rep, l0 ++ concat (warm ++ timed), st')) by (unfold driven; rewrite H2; reflexivity).
  eapply wp_conseq; [eapply wp_same_launches; [exact (wp_self Wk)|exact H3|exact E]|]. intros z st1 s1 [-> He]. apply (HQ k c); [|exists n; auto|exact He].
  exists n. split; [exact H1|]. unfold k. rewrite Z2Nat.id by nia. reflexivity.
Qed.

(** Which solver runs: CG, BiCGStab, or GMRES with restart length 10, stepped the number of times that -it and -pt ask for (at least five traces). *)
Definition solver_result (T : Type) (A : arith T) lg red (solver : Z) (pl : planner T) (k : nat) st s st' s' : Prop :=
  (solver = 1%Z -> exists c, ends (cg_run A lg red pl k) st s c st' s') /\
  (solver = 2%Z -> exists c, ends (bicg_run A lg red pl k) st s c st' s') /\
  (solver = 3%Z -> exists c, ends (gmres_run A lg red pl 10 k) st s c st' s').
(** ** Any arithmetic: with -solver 1, 2 or 3 the program runs to the end, prints the report, and its two right-hand sides are still filled with ones. *)
Section Runs.
Variable T : Type.
Variable A : arith T.
Variable lg : legion.
Variable red : nat -> list T -> T.
Hypothesis Hlg : legion_ok lg.
Variable q : nat.
Variable m : matrix T.
Lemma wp_solver solver it pt y (Q : option report -> ist -> store loc T -> Prop) st s : (1 <= solver <= 3)%Z -> (0 <= it)%Z -> (0 < pt)%Z -> (it + pt <= 2 ^ 64)%Z -> prepared A lg q m y st s ->
  (forall rep st' s', report_for it pt rep -> filled lg q s' (v_rhs (fst y)) (a1 A) -> filled lg q s' (v_rhs1 (fst y)) (a1 A) ->
     (exists k, steps_for it pt k /\ solver_result A lg red solver (snd y) k st s st' s') -> Q (Some rep) st' s') ->
  wp (run_solver A lg red solver it pt (snd y)) Q st s.
Proof.
  intros Hso H1 H2 H3 (P1 & P2 & Hs & P4 & P5 & P6 & P7) HQ. set (cs := benchmark_calls _ _ _ _ _) in *. assert (Hl : 0 < length (sols_of cs)) by (cbn; lia).
  assert (Kept : forall X (p : M T X) (x : X) st' s', leaves_alone p st (may_change lg cs st) -> ends p st s x st' s' -> filled lg q s' (v_rhs (fst y)) (a1 A) /\ filled lg q s' (v_rhs1 (fst y)) (a1 A)).
  { intros X p x st' s' Hla He. destruct (C88_rhs_kept Hs Hla He) as [K _]. split; intros r Hr; rewrite K by (cbn; tauto); [apply P6|apply P7]; exact Hr. }
  unfold run_solver. destruct (Z.eqb_spec solver 1) as [E1|N1]; [|destruct (Z.eqb_spec solver 2) as [E2|N2]; [|destruct (Z.eqb_spec solver 3) as [E3|N3]; [|lia]]].
  - apply wp_driven with (run := cg_run A lg red (snd y)).
    + destruct (C70_cg_benchmark A red Hlg Hs Hl H1 H2 H3) as (n & c & l0 & warm & timed & rep & st' & K1 & K2 & _ & _ & _ & K). exists n, c, l0, warm, timed, rep, st'. tauto.
    + exact H2.
    + intros k. eexists. apply (cg_run_good A red Hlg Hl _ _ Hs).
    + intros k c rep st' s' Hk Hrep He. destruct (Kept _ _ _ _ _ (C88_cg A red k Hlg Hs Hl) He). apply HQ; [assumption..|]. exists k. split; [exact Hk|]. split; [eauto|split; lia].
  - apply wp_driven with (run := bicg_run A lg red (snd y)).
    + destruct (C70_bicgstab_benchmark A red Hlg Hs Hl H1 H2 H3) as (n & c & l0 & warm & timed & rep & st' & K1 & K2 & _ & _ & _ & K). exists n, c, l0, warm, timed, rep, st'. tauto.
    + exact H2.
    + intros k. eexists. apply (bicg_run_good A red Hlg Hl _ _ Hs).
    + intros k c rep st' s' Hk Hrep He. destruct (Kept _ _ _ _ _ (C88_bicgstab A red k Hlg Hs Hl) He). apply HQ; [assumption..|]. exists k. split; [exact Hk|]. split; [lia|split; [eauto|lia]].
  - apply wp_driven with (run := gmres_run A lg red (snd y) 10).
    + destruct (C70_gmres_benchmark A red 10 Hlg Hs Hl H1 H2 H3) as (n & c & l0 & warm & timed & rep & st' & K1 & K2 & _ & _ & _ & K). exists n, c, l0, warm, timed, rep, st'. tauto.
    + exact H2.
    + intros k. eexists. apply (gmres_run_good A red Hlg Hl _ _ _ Hs).
    + intros k c rep st' s' Hk Hrep He. destruct (Kept _ _ _ _ _ (C88_gmres A red 10 k Hlg Hs Hl) He). apply HQ; [assumption..|]. exists k. split; [exact Hk|]. split; [lia|split; [lia|eauto]].
Qed.
End Runs.

Theorem C89_benchmark_runs : forall (T : Type) (A : arith T) lg red o (m : matrix T) q st s,
  legion_ok lg -> partition_disjoint lg q -> partition_complete lg q -> matrix_ok lg m -> match m with COO _ => True | CSR c => part_parent lg q = cs_rows c end ->
  (1 <= op_dim o <= 4)%Z -> (1 <= op_solver o <= 3)%Z -> (0 <= op_it o)%Z -> (0 < op_pt o)%Z -> (op_it o + op_pt o <= 2 ^ 64)%Z ->
  accepted (benchmark_program A lg red o m q) st /\
  forall x st' s', ends (benchmark_program A lg red o m q) st s x st' s' ->
    (exists vs rep, x = Finished vs (Some rep) /\ report_for (op_it o) (op_pt o) rep /\
      forall v p, In v [v_rhs vs; v_rhs1 vs] -> In p (is_points lg (part_parent lg q)) -> s' (at_point v p) = a1 A) /\
    forall x2 st2 s2, ends (benchmark_program A lg red o m q) st s x2 st2 s2 -> x2 = x /\ forall l, s2 l = s' l.
Proof.
  intros T A lg red o m q st s Hlg Hd Hc Hm Hr Hdim Hso H1 H2 H3.
  assert (W : wp (benchmark_program A lg red o m q) (fun x _ s' => exists vs rep, x = Finished vs (Some rep) /\ report_for (op_it o) (op_pt o) rep /\
      filled lg q s' (v_rhs vs) (a1 A) /\ filled lg q s' (v_rhs1 vs) (a1 A)) st s).
  { apply wp_program; [exact Hlg|exact (proj2 (disjoint_all_spec (part_pieces lg q)) Hd)|exact (proj2 (is_complete_spec lg q) Hc)|exact Hm|exact Hr|apply dim_chosen; exact Hdim|].
    intros y st2 s2 Hp. eapply wp_solver; [exact Hlg|exact Hso|exact H1|exact H2|exact H3|exact Hp|]. intros rep st' s' Hrep F1 F2 _. exists (fst y), rep. auto. }
  split; [eapply wp_accepted; exact W|]. intros x st' s' He. split.
  - destruct (wp_ends W He) as [s1 [(vs & rep & -> & Hrep & F1 & F2) E]]. exists vs, rep. split; [reflexivity|]. split; [exact Hrep|]. intros v p Hv Hp. rewrite E.
    cbn [In] in Hv. destruct Hv as [<-|[<-|[]]]; [apply F1|apply F2]; exact Hp.
  - intros x2 st2 s2 He2. destruct W as (x0 & lns & st0 & E & G & _). destruct He as [l1 [E1 L1]]. destruct He2 as [l2 [E2 L2]]. rewrite E in E1, E2. injection E1 as <- <- <-. injection E2 as <- <- <-.
    split; [reflexivity|]. intros l. rewrite (launches_end_effect G L1), (launches_end_effect G L2). reflexivity.
Qed.
Theorem C89_which_solver : forall (T : Type) (A : arith T) lg red o (m : matrix T) q st s,
  legion_ok lg -> partition_disjoint lg q -> partition_complete lg q -> matrix_ok lg m -> match m with COO _ => True | CSR c => part_parent lg q = cs_rows c end ->
  (1 <= op_dim o <= 4)%Z -> (1 <= op_solver o <= 3)%Z -> (0 <= op_it o)%Z -> (0 < op_pt o)%Z -> (op_it o + op_pt o <= 2 ^ 64)%Z ->
  forall x st' s' k, steps_for (op_it o) (op_pt o) k -> ends (benchmark_program A lg red o m q) st s x st' s' ->
  exists vs rep pl st0 s0 st1 s1, x = Finished vs (Some rep) /\
    (* the four vectors as they are when the planner has been set up with them *)
    (forall p, In p (is_points lg (part_parent lg q)) -> s0 (at_point (v_sol vs) p) = a0 A /\ s0 (at_point (v_sol1 vs) p) = a0 A /\ s0 (at_point (v_rhs vs) p) = a1 A /\ s0 (at_point (v_rhs1 vs) p) = a1 A) /\
    do_calls lg (new_planner T) [AddSol (v_sol vs); AddSol (v_sol1 vs); AddRhs (v_rhs vs); AddRhs (v_rhs1 vs); AddMatrix m 0 0; AddMatrix m 1 1] = Ok pl /\
    solver_result A lg red (op_solver o) pl k st0 s0 st1 s1 /\ forall l, s' l = s1 l.
Proof.
  intros T A lg red o m q st s Hlg Hd Hc Hm Hr Hdim Hso H1 H2 H3 x st' s' k Hk He.
  assert (W : wp (benchmark_program A lg red o m q) (fun x _ s' => exists vs rep pl st0 s0 st1 k', x = Finished vs (Some rep) /\ steps_for (op_it o) (op_pt o) k' /\
    (forall p, In p (is_points lg (part_parent lg q)) -> s0 (at_point (v_sol vs) p) = a0 A /\ s0 (at_point (v_sol1 vs) p) = a0 A /\ s0 (at_point (v_rhs vs) p) = a1 A /\ s0 (at_point (v_rhs1 vs) p) = a1 A) /\
    do_calls lg (new_planner T) (benchmark_calls (v_sol vs) (v_sol1 vs) (v_rhs vs) (v_rhs1 vs) m) = Ok pl /\
    solver_result A lg red (op_solver o) pl k' st0 s0 st1 s') st s).
  { apply wp_program; [exact Hlg|exact (proj2 (disjoint_all_spec (part_pieces lg q)) Hd)|exact (proj2 (is_complete_spec lg q) Hc)|exact Hm|exact Hr|apply dim_chosen; exact Hdim|].
    intros y st2 s2 Hp. assert (Hp' := Hp). destruct Hp' as (_ & _ & Hs & F1 & F2 & F3 & F4). eapply wp_solver; [exact Hlg|exact Hso|exact H1|exact H2|exact H3|exact Hp|].
    intros rep st1 s1 _ _ _ (k' & Hk' & Hres). exists (fst y), rep, (snd y), st2, s2, st1, k'. split; [reflexivity|]. split; [exact Hk'|]. split; [intros p Hin; auto|]. split; [exact (proj2 Hs)|exact Hres]. }
  destruct (wp_ends W He) as [s1 [(vs & rep & pl & st0 & s0 & st1 & k' & -> & Hk' & F & D & Hres) E]]. assert (k' = k) as -> by (eapply steps_for_unique; eassumption).
  exists vs, rep, pl, st0, s0, st1, s1. split; [reflexivity|]. split; [exact F|]. split; [exact D|]. split; [exact Hres|exact E].
Qed.
(** any other -solver value: no solver runs, nothing is reported, the solution vectors stay zero *)
Theorem C89_no_solver : forall (T : Type) (A : arith T) lg red o (m : matrix T) q st s,
  legion_ok lg -> partition_disjoint lg q -> partition_complete lg q -> matrix_ok lg m -> match m with COO _ => True | CSR c => part_parent lg q = cs_rows c end ->
  (1 <= op_dim o <= 4)%Z -> (op_solver o < 1 \/ 3 < op_solver o)%Z ->
  accepted (benchmark_program A lg red o m q) st /\
  forall x st' s', ends (benchmark_program A lg red o m q) st s x st' s' -> exists vs, x = Finished vs None /\
    forall p, In p (is_points lg (part_parent lg q)) -> s' (at_point (v_sol vs) p) = a0 A /\ s' (at_point (v_sol1 vs) p) = a0 A /\ s' (at_point (v_rhs vs) p) = a1 A /\ s' (at_point (v_rhs1 vs) p) = a1 A.
Proof.
  intros T A lg red o m q st s Hlg Hd Hc Hm Hr Hdim Hso.
  assert (W : wp (benchmark_program A lg red o m q) (fun x _ s' => exists vs, x = Finished vs None /\
      filled lg q s' (v_sol vs) (a0 A) /\ filled lg q s' (v_sol1 vs) (a0 A) /\ filled lg q s' (v_rhs vs) (a1 A) /\ filled lg q s' (v_rhs1 vs) (a1 A)) st s).
  { apply wp_program; [exact Hlg|exact (proj2 (disjoint_all_spec (part_pieces lg q)) Hd)|exact (proj2 (is_complete_spec lg q) Hc)|exact Hm|exact Hr|apply dim_chosen; exact Hdim|].
    intros y st2 s2 (_ & _ & _ & Hp). unfold run_solver. destruct (Z.eqb_spec (op_solver o) 1); [lia|]. destruct (Z.eqb_spec (op_solver o) 2); [lia|]. destruct (Z.eqb_spec (op_solver o) 3); [lia|].
    apply wp_ret. exists (fst y). tauto. }
  split; [eapply wp_accepted; exact W|]. intros x st' s' He. destruct (wp_ends W He) as [s1 [(vs & -> & F1 & F2 & F3 & F4) E]]. exists vs. split; [reflexivity|]. intros p Hp.
  rewrite !E. split; [apply F1|split; [apply F2|split; [apply F3|apply F4]]]; exact Hp.
Qed.
(** -pt 0: division by zero *)
Theorem C89_per_trace_zero : forall (T : Type) (A : arith T) lg red o (m : matrix T) q st,
  legion_ok lg -> partition_disjoint lg q -> partition_complete lg q -> matrix_ok lg m -> match m with COO _ => True | CSR c => part_parent lg q = cs_rows c end ->
  (1 <= op_dim o <= 4)%Z -> (1 <= op_solver o <= 3)%Z -> op_pt o = 0%Z -> benchmark_program A lg red o m q st = UB.
Proof.
  intros T A lg red o m q st Hlg Hd Hc Hm Hr Hdim Hso Hpt. unfold benchmark_program. assert (Hch := dim_chosen o Hdim). destruct (chosen_stencil o); [|contradiction]. clear Hch.
  destruct (@wp_prepare T A lg red Hlg q m (proj2 (disjoint_all_spec (part_pieces lg q)) Hd) (proj2 (is_complete_spec lg q) Hc) Hm Hr st (fun _ => a0 A)) as (y & lns & st2 & E & _ & (_ & _ & Hs & _)).
  unfold bind at 1. rewrite E. cbn [obind]. set (cs := benchmark_calls _ _ _ _ _) in *. assert (Hl : 0 < length (sols_of cs)) by (cbn; lia).
  assert (U : run_solver A lg red (op_solver o) (op_it o) (op_pt o) (snd y) st2 = UB).
  { unfold run_solver. rewrite Hpt. destruct (Z.eqb_spec (op_solver o) 1); [|destruct (Z.eqb_spec (op_solver o) 2); [|destruct (Z.eqb_spec (op_solver o) 3); [|lia]]].
    - unfold driven. rewrite C70_per_trace_zero; [reflexivity|]. destruct (wp_accepted (cg_run_good A red Hlg Hl (fun _ => a0 A) 0 Hs)) as [[[c0 l0] s0] E0]. apply ok_bind in E0. destruct E0 as (c & l & s1 & l' & E0 & _). eexists. exact E0.
    - unfold driven. rewrite C70_per_trace_zero; [reflexivity|]. destruct (wp_accepted (bicg_run_good A red Hlg Hl (fun _ => a0 A) 0 Hs)) as [[[c0 l0] s0] E0]. apply ok_bind in E0. destruct E0 as (c & l & s1 & l' & E0 & _). eexists. exact E0.
    - unfold driven. rewrite C70_per_trace_zero; [reflexivity|]. destruct (wp_accepted (gmres_run_good A red Hlg Hl (fun _ => a0 A) 10 0 Hs)) as [[[c0 l0] s0] E0]. apply ok_bind in E0. destruct E0 as (c & l & s1 & l' & E0 & _). eexists. exact E0. }
  unfold bind. rewrite U. reflexivity.
Qed.

(** ** Exact arithmetic, -solver 1: what the run computes.  One copy of conjugate gradients (the textbook iteration on the grid, CGSpec.v) with right-hand
    side one and initial guess zero solves the discrete equation after K steps, no more than there are grid points, and not earlier.  If the program takes
    no more than K steps both solution vectors hold that iterate; if it takes more, every entry of both is undefined (zero divided by zero). *)
Theorem C89_benchmark_cg : forall ltT lg red o (m : matrix (option R)) q b offs,
  legion_ok lg -> legal_reduction exact red -> partition_disjoint lg q -> partition_complete lg q ->
  chosen_stencil o = Some (b, offs) -> nonempty_box b ->
  (forall x, In x (is_points lg (part_parent lg q)) <-> exists k, (0 <= k < volume b)%Z /\ x = [k]) ->
  stencil_matrix exact ltT ROW_MAJOR b (real_offsets offs) (part_parent lg q) true m ->
  op_solver o = 1%Z -> (0 <= op_it o)%Z -> (0 < op_pt o)%Z -> (op_it o + op_pt o <= 2 ^ 64)%Z ->
  let X := fun n => it_x (grid_cg ROW_MAJOR b offs (fun _ => 1%R) n) in
  exists K, 1 <= K /\ (Z.of_nat K <= volume b)%Z /\ (forall p, in_box b p -> convolve b offs (X K) p = 1%R) /\ (forall j, j < K -> ~ (forall p, in_box b p -> convolve b offs (X j) p = 1%R)) /\
  forall st s, accepted (benchmark_program exact lg red o m q) st /\
  forall x st' s' k, steps_for (op_it o) (op_pt o) k -> ends (benchmark_program exact lg red o m q) st s x st' s' -> exists vs rep, x = Finished vs (Some rep) /\
    forall v, In v [v_sol vs; v_sol1 vs] ->
      (k <= K -> forall p, in_box b p -> s' (at_point v [linearize ROW_MAJOR b p]) = Some (X k p)) /\
      (K < k -> forall c, (0 <= c < volume b)%Z -> s' (at_point v [c]) = None).
Proof.
  intros ltT lg red o m q b offs Hlg Hred Hd Hc Hch Hn Hpts Hm Hso H1 H2 H3 X.
  assert (Hne : chosen_stencil o <> None) by congruence. assert (Hch' := Hch). unfold chosen_stencil in Hch'. destruct ((1 <=? op_dim o)%Z && (op_dim o <=? 4)%Z); [|discriminate]. injection Hch' as Hb Ho.
  set (dim := Z.to_nat (op_dim o)) in *.
  assert (Hlo : lo b <> []) by (rewrite <- Hb; destruct dim as [|[|[|]]]; discriminate).
  assert (Hdi : offsets_dim b offs) by (rewrite <- Hb, <- Ho; apply benchmark_dim).
  assert (Hsy : symmetric_stencil b offs) by (rewrite <- Hb, <- Ho; apply benchmark_symmetric).
  assert (Hpo : positive_stencil ROW_MAJOR b offs) by (apply C62_dominant_stencil_positive; [exact Hn|exact Hdi|rewrite <- Hb, <- Ho; apply benchmark_dominant]).
  assert (Hg := linear_grid ROW_MAJOR (is_points lg (part_parent lg q)) Hn Hpts).
  destruct (stencil_matrix_ok Hlo Hn Hdi Hm lg Hg) as [M1 M2].
  destruct (grid_solved (fun _ => 1%R) Hn Hdi Hsy Hpo) as (K & K1 & K2 & K3). exists K.
  assert (Pos : 1 <= K).
  { destruct K; [|lia]. exfalso. assert (E : in_box b (lo b)) by (destruct Hn as [L L']; split; [reflexivity|]; split; [auto|]; intros i Hi; split; [lia|apply L'; exact Hi]).
    specialize (K2 _ E). cbn [grid_cg cg_iter it_x] in K2. unfold convolve in K2. rewrite (Rsum_ext _ (fun _ => 0%R)) in K2; [rewrite Rsum_zero in K2; lra|]. intros oe _. unfold zero_outside. destruct (contains _ _); ring. }
  split; [exact Pos|]. split; [exact K1|]. split; [exact K2|]. split; [exact K3|]. intros st s.
  assert (W : wp (benchmark_program exact lg red o m q) (fun x _ s' => exists vs rep k, x = Finished vs (Some rep) /\ steps_for (op_it o) (op_pt o) k /\ forall v, In v [v_sol vs; v_sol1 vs] ->
      (k <= K -> forall p, in_box b p -> s' (at_point v [linearize ROW_MAJOR b p]) = Some (X k p)) /\
      (K < k -> forall q', In q' (is_points lg (part_parent lg q)) -> s' (at_point v q') = None)) st s).
  { apply wp_program; [exact Hlg|exact (proj2 (disjoint_all_spec (part_pieces lg q)) Hd)|exact (proj2 (is_complete_spec lg q) Hc)|exact M1|exact M2|exact Hne|].
    intros y st2 s2 Hp. eapply wp_solver; [exact Hlg|rewrite Hso; lia|exact H1|exact H2|exact H3|exact Hp|]. intros rep st' s' _ _ _ (k & Hk & Hrun & _). destruct (Hrun Hso) as (c & He).
    exists (fst y), rep, k. split; [reflexivity|]. split; [exact Hk|]. intros v Hv. destruct Hp as (P1 & P2 & Hs & P4 & P5 & P6 & P7).
    assert (HG : forall w x, filled lg q s2 w (Some x) -> holds_grid true ROW_MAJOR b s2 w (fun _ => x)) by (intros w x Hw p Hpb; apply Hw; apply Hg; exists p; auto).
    apply (@copies_cg ltT ROW_MAJOR b offs lg red true m (part_parent lg q) 2 _ st2 (snd y) s2 (fun _ => 1%R) K Hlo Hn Hdi Hsy Hpo Hlg Hred Hs Hg Hm) with (c := c) (st' := st'); try assumption.
    - lia.
    - reflexivity.
    - intros w Hw. apply P1. exact Hw.
    - reflexivity.
    - cbn [sols_of benchmark_calls flat_map app In]. intros w [<-|[<-|[]]]; apply HG; assumption.
    - cbn [rhss_of benchmark_calls flat_map app In]. intros w [<-|[<-|[]]]; apply HG; assumption. }
  split; [eapply wp_accepted; exact W|]. intros x st' s' k Hk He. destruct (wp_ends W He) as [s1 [(vs & rep & k' & -> & Hk' & HV) E]]. assert (k' = k) as -> by (eapply steps_for_unique; eassumption).
  exists vs, rep. split; [reflexivity|]. intros v Hv. destruct (HV v Hv) as [V1 V2]. split.
  - intros L p Hp. rewrite E. apply V1; assumption.
  - intros L c Hcv. rewrite E. apply V2; [exact L|]. apply Hpts. exists c. auto.
Qed.

(** ** The 1-D benchmark: how many steps the grid of n points needs, and every iterate before that *)
Section OneD.
Variable n : nat.
Hypothesis Hn : 1 <= n.
Let b := mk_rect [0]%Z [Z.of_nat n - 1]%Z.
Let offs := benchmark_offsets 1.
Let us := map (fun i => (0, [Z.of_nat i])) (seq 0 n).
Let a := fun u v : nat * point => coefficient offs (padd (snd v) (popp (snd u))).
Lemma box1_in p : in_box b p <-> exists i, i < n /\ p = [Z.of_nat i].
Proof.
  split.
  - intros (L & _ & H). destruct p as [|x [|]]; try discriminate. specialize (H 0 ltac:(cbn; lia)). cbn in H. exists (Z.to_nat x). split; [lia|]. rewrite Z2Nat.id by lia. reflexivity.
  - intros [i [Hi ->]]. split; [reflexivity|]. split; [reflexivity|]. intros [|j] Hj; cbn in *; lia.
Qed.
Lemma box1_nonempty : nonempty_box b.
Proof. split; [reflexivity|]. intros [|i] Hi; cbn in *; lia. Qed.
Lemma box1_perm : Permutation (box_points ROW_MAJOR b) (map (fun i => [Z.of_nat i]) (seq 0 n)).
Proof. apply grid_1d_perm; [apply NoDup_box_points|]. intros p. rewrite (in_box_points ROW_MAJOR b p (nonempty_wf _ box1_nonempty)). apply box1_in. Qed.
Lemma convolve1 x i : i < n -> convolve b offs x [Z.of_nat i] = lap_row_sum n (fun j => x [Z.of_nat j]) i.
Proof.
  intros Hi. unfold convolve, offs, benchmark_offsets. rewrite Rsum_map. cbn [benchmark_numerators benchmark_denominator Nat.leb]. rewrite !Rsum_cons, Rsum_nil. cbn [fst snd padd].
  unfold zero_outside, contains. cbn [b lo hi contains_aux]. rewrite !andb_true_r. unfold lap_row_sum, outside_zero.
  destruct (Z.leb_spec 0 (Z.of_nat i + 0)); [|lia]. destruct (Z.leb_spec (Z.of_nat i + 0) (Z.of_nat n - 1)); [|lia]. cbn [andb]. rewrite Z.add_0_r.
  assert (E1 : (if ((0 <=? Z.of_nat i + -1) && (Z.of_nat i + -1 <=? Z.of_nat n - 1))%Z then x [Z.of_nat i + -1]%Z else 0%R) = match i with 0 => 0%R | S j => x [Z.of_nat j] end).
  { destruct i as [|i]; [reflexivity|]. destruct (Z.leb_spec 0 (Z.of_nat (S i) + -1)); [|lia]. destruct (Z.leb_spec (Z.of_nat (S i) + -1) (Z.of_nat n - 1)); [|lia]. cbn [andb]. do 2 f_equal. lia. }
  assert (E2 : (if ((0 <=? Z.of_nat i + 1) && (Z.of_nat i + 1 <=? Z.of_nat n - 1))%Z then x [Z.of_nat i + 1]%Z else 0%R) = if S i <? n then x [Z.of_nat (S i)] else 0%R).
  { destruct (Nat.ltb_spec (S i) n); destruct (Z.leb_spec 0 (Z.of_nat i + 1)); destruct (Z.leb_spec (Z.of_nat i + 1) (Z.of_nat n - 1)); try lia; cbn [andb]; [|reflexivity]. do 2 f_equal. lia. }
  rewrite E1, E2. generalize (match i with 0 => 0%R | S j => x [Z.of_nat j] end) as A2. generalize (if S i <? n then x [Z.of_nat (S i)] else 0%R) as A3. intros A3 A2. lra.
Qed.
Lemma operator1 x i : i < n -> app_op us a x (0, [Z.of_nat i]) = lap_row_sum n (at_index x) i.
Proof.
  intros Hi. transitivity (convolve b offs (fun p => x (0, p)) [Z.of_nat i]); [|apply (@convolve1 (fun p => x (0, p)) i Hi)].
  rewrite (convolve_operator ROW_MAJOR (fun p => x (0, p)) (nonempty_wf _ box1_nonempty) (@benchmark_dim 1 (Z.of_nat n) 1 1)); [|apply box1_in; eauto].
  unfold app_op. rewrite (Rsum_perm _ box1_perm). unfold us. rewrite !Rsum_map. reflexivity.
Qed.
Lemma iterate1 k i : 2 * k <= n + 1 -> i < n -> it_x (grid_cg ROW_MAJOR b offs (fun _ => 1%R) k) [Z.of_nat i] = x_form n k i /\
  it_r (grid_cg ROW_MAJOR b offs (fun _ => 1%R) k) [Z.of_nat i] = r_form n k i.
Proof.
  intros Hk Hi.
  assert (P1 : Permutation us (flat_map (fun i => map (fun p => (i, p)) (box_points ROW_MAJOR b)) (seq 0 1))).
  { cbn [seq flat_map]. rewrite app_nil_r, (Permutation_map (fun p => (0, p)) box1_perm), map_map. reflexivity. }
  destruct (@cg_same _ _ (box_points ROW_MAJOR b) us 1 (fun i p => (i, p)) (fun p q => coefficient offs (padd q (popp p))) a (fun _ => 0%R) (fun _ => 1%R) (fun _ => 0%R) (fun _ => 1%R) (le_n 1) P1) with (n := k) as (S1 & S2 & _).
  - intros g h Hgh j p Hj Hp. unfold app_op. rewrite (Rsum_perm _ P1). cbn [seq flat_map]. rewrite app_nil_r, Rsum_map. apply Rsum_ext. intros p' Hp'. rewrite (Hgh 0 p') by (lia || exact Hp'). reflexivity.
  - intros j p _ _. reflexivity.
  - intros j p _ _. reflexivity.
  - assert (Hin : In [Z.of_nat i] (box_points ROW_MAJOR b)) by (apply (in_box_points ROW_MAJOR b _ (nonempty_wf _ box1_nonempty)); apply box1_in; eauto).
    destruct (@cg_closed_form n us a (Permutation_refl _) operator1 k Hk i Hi) as (C1 & C2 & _). unfold at_index in C1, C2.
    split; [rewrite <- C1; symmetry; apply (S1 0); [lia|exact Hin]|rewrite <- C2; symmetry; apply (S2 0); [lia|exact Hin]].
Qed.
Lemma solved1 k : 2 * k <= n + 1 -> (forall p, in_box b p -> convolve b offs (it_x (grid_cg ROW_MAJOR b offs (fun _ => 1%R) k)) p = 1%R) <-> n <= 2 * k.
Proof.
  intros Hk. assert (N : ip (box_points ROW_MAJOR b) (it_r (grid_cg ROW_MAJOR b offs (fun _ => 1%R) k)) (it_r (grid_cg ROW_MAJOR b offs (fun _ => 1%R) k)) = norm_form n k).
  { unfold ip. rewrite (Rsum_perm _ box1_perm), Rsum_map, <- (@r_norm n k Hk). apply Rsum_ext. intros i Hi. apply in_seq in Hi. destruct (@iterate1 k i Hk ltac:(lia)) as [_ ->]. reflexivity. }
  assert (G := grid_ip_zero ROW_MAJOR (fun _ => 1%R) box1_nonempty (@benchmark_dim 1 (Z.of_nat n) 1 1) k). fold offs in G. rewrite N in G. cbn beta in G. etransitivity; [symmetry; exact G|]. clear G. split.
  - intros E. destruct (Nat.le_gt_cases n (2 * k)) as [L|L]; [exact L|]. assert (P := @norm_form_pos n k L). lra.
  - intros L. unfold norm_form. destruct k as [|k]; [lia|]. destruct (Nat.ltb_spec n (2 * S k)); [reflexivity|]. assert (E : n = 2 * S k) by lia. rewrite E at 1 2. rewrite mult_INR. change (INR 2) with 2%R. lra.
Qed.
End OneD.

(** -dim 1 -solver 1: the two solution vectors, entry by entry.  With n points the run solves the system when it takes half of n steps, rounded up; with fewer
    steps it has reached the parabola up to that many points from the ends; with more steps every entry is undefined. *)
Theorem C89_benchmark_1d : forall ltT lg red o (m : matrix (option R)) q n,
  legion_ok lg -> legal_reduction exact red -> partition_disjoint lg q -> partition_complete lg q ->
  op_dim o = 1%Z -> op_nx o = Z.of_nat n -> 1 <= n ->
  (forall x, In x (is_points lg (part_parent lg q)) <-> exists i, i < n /\ x = [Z.of_nat i]) ->
  stencil_matrix exact ltT ROW_MAJOR (mk_rect [0]%Z [Z.of_nat n - 1]%Z) [([0]%Z, Some 2%R); ([-1]%Z, Some (-1)%R); ([1]%Z, Some (-1)%R)] (part_parent lg q) true m ->
  op_solver o = 1%Z -> (0 <= op_it o)%Z -> (0 < op_pt o)%Z -> (op_it o + op_pt o <= 2 ^ 64)%Z ->
  forall st s, accepted (benchmark_program exact lg red o m q) st /\
  forall x st' s' k, steps_for (op_it o) (op_pt o) k -> ends (benchmark_program exact lg red o m q) st s x st' s' -> exists vs rep, x = Finished vs (Some rep) /\
    forall v i, In v [v_sol vs; v_sol1 vs] -> i < n ->
      let t := Nat.min k (S (Nat.min i (n - 1 - i))) in
      s' (at_point v [Z.of_nat i]) = if 2 * k <=? n + 1 then Some (INR t * (INR n + 1 - INR t) / 2)%R else None.
Proof.
  intros ltT lg red o m q n Hlg Hred Hd Hc Hdim Hnx Hn Hpts Hm Hso H1 H2 H3 st s.
  set (b := mk_rect [0]%Z [Z.of_nat n - 1]%Z) in *.
  assert (Hch : chosen_stencil o = Some (b, benchmark_offsets 1)) by (unfold chosen_stencil; rewrite Hdim, Hnx; reflexivity).
  assert (Hne := box1_nonempty Hn). fold b in Hne.
  assert (Hv : volume b = Z.of_nat n) by (unfold volume, b; cbn [lo hi volume_aux]; destruct (Z.ltb_spec (Z.of_nat n - 1) 0); lia).
  destruct (@C89_benchmark_cg ltT lg red o m q b (benchmark_offsets 1) Hlg Hred Hd Hc Hch Hne) as (K & K1 & K2 & K3 & K4 & KK); try assumption.
  - intros x. rewrite Hpts, Hv. split.
    + intros [i [Hi ->]]. exists (Z.of_nat i). split; [lia|reflexivity].
    + intros [k [Hk ->]]. exists (Z.to_nat k). split; [lia|]. rewrite Z2Nat.id by lia. reflexivity.
  - replace (real_offsets (benchmark_offsets 1)) with [([0]%Z, Some 2%R); ([-1]%Z, Some (-1)%R); ([1]%Z, Some (-1)%R)]; [exact Hm|].
    unfold real_offsets, benchmark_offsets. cbn [benchmark_numerators benchmark_denominator Nat.leb map fst snd]. unfold Rdiv. rewrite Rinv_1, !Rmult_1_r. reflexivity.
  - assert (Half : 2 * K <= n + 1 /\ n <= 2 * K).
    { assert (D := Nat.div_mod (n + 1) 2 ltac:(lia)). assert (D2 := Nat.mod_upper_bound (n + 1) 2 ltac:(lia)). set (K0 := (n + 1) / 2) in *.
      assert (C := Nat.lt_trichotomy K K0). destruct C as [C|[C|C]].
      - exfalso. assert (L : 2 * K <= n + 1) by lia. assert (S1 := proj1 (@solved1 n Hn K L) K3). lia.
      - rewrite C. lia.
      - exfalso. apply (K4 K0 C). apply (@solved1 n Hn K0); lia. }
    destruct (KK st s) as [A0 A1]. split; [exact A0|]. intros x st' s' k Hk He. destruct (A1 x st' s' k Hk He) as (vs & rep & -> & HV). exists vs, rep. split; [reflexivity|]. intros v i Hvv Hi t.
    destruct (HV v Hvv) as [V1 V2]. destruct (Nat.leb_spec (2 * k) (n + 1)) as [L|L].
    + specialize (V1 ltac:(lia) [Z.of_nat i]). assert (EL : linearize ROW_MAJOR b [Z.of_nat i] = Z.of_nat i) by (unfold linearize, linearize_row_major, b; cbn [lo hi linearize_row_major_aux fst snd]; lia). rewrite EL in V1. rewrite V1 by (apply box1_in; eauto).
      f_equal. destruct (@iterate1 n Hn k i L Hi) as [IX _]. etransitivity; [exact IX|]. unfold x_form, half, depth. fold t. lra.
    + apply V2; [lia|]. rewrite Hv. lia.
Qed.
(** Without options the program takes 20 steps on 16 points: in exact arithmetic every entry of both solution vectors ends undefined. *)
Theorem C89_default_run : forall ltT lg red (m : matrix (option R)) q,
  legion_ok lg -> legal_reduction exact red -> partition_disjoint lg q -> partition_complete lg q ->
  (forall x, In x (is_points lg (part_parent lg q)) <-> exists i, i < 16 /\ x = [Z.of_nat i]) ->
  stencil_matrix exact ltT ROW_MAJOR (mk_rect [0] [15])%Z [([0]%Z, Some 2%R); ([-1]%Z, Some (-1)%R); ([1]%Z, Some (-1)%R)] (part_parent lg q) true m ->
  forall st s, accepted (benchmark_program exact lg red (parse_options []) m q) st /\
  forall x st' s', ends (benchmark_program exact lg red (parse_options []) m q) st s x st' s' -> exists vs, x = Finished vs (Some (mk_report 5 15 15)) /\
    forall v i, In v [v_sol vs; v_sol1 vs] -> i < 16 -> s' (at_point v [Z.of_nat i]) = None.
Proof.
  intros ltT lg red m q Hlg Hred Hd Hc Hpts Hm st s.
  destruct (@C89_benchmark_1d ltT lg red (parse_options []) m q 16 Hlg Hred Hd Hc eq_refl eq_refl ltac:(lia) Hpts Hm eq_refl ltac:(cbn; lia) ltac:(cbn; lia) ltac:(cbn; lia) st s) as [A0 A1].
  split; [exact A0|]. intros x st' s' He. destruct (A1 x st' s' 20) with (2 := He) as (vs & rep & -> & HV); [exists 20%Z; cbn; lia|].
  exists vs. split; [|intros v i Hv Hi; exact (HV v i Hv Hi)]. clear HV.
  assert (Hg : grid_space true ROW_MAJOR (mk_rect [0] [15])%Z (is_points lg (part_parent lg q))).
  { apply linear_grid; [split; [reflexivity|intros [|i] Hi; cbn in *; lia]|]. intros y. rewrite Hpts. split; intros [k [Hk ->]]; [exists (Z.of_nat k)|exists (Z.to_nat k)]; cbn in *; (split; [lia|]); [reflexivity|rewrite Z2Nat.id by lia; reflexivity]. }
  assert (Hm' : stencil_matrix exact ltT ROW_MAJOR (mk_rect [0] [15])%Z (real_offsets (benchmark_offsets 1)) (part_parent lg q) true m).
  { replace (real_offsets (benchmark_offsets 1)) with [([0]%Z, Some 2%R); ([-1]%Z, Some (-1)%R); ([1]%Z, Some (-1)%R)]; [exact Hm|].
    unfold real_offsets, benchmark_offsets. cbn [benchmark_numerators benchmark_denominator Nat.leb map fst snd]. unfold Rdiv. rewrite Rinv_1, !Rmult_1_r. reflexivity. }
  destruct (@stencil_matrix_ok ltT ROW_MAJOR (mk_rect [0] [15])%Z (benchmark_offsets 1)) with (lg := lg) (4 := Hm') (5 := Hg) as [M1 M2]; [discriminate|split; [reflexivity|intros [|i] Hi; cbn in *; lia]|apply (@benchmark_dim 1 16 1 1)|].
  destruct (@C89_benchmark_runs _ exact lg red (parse_options []) m q st s Hlg Hd Hc M1 M2) as [_ C]; try (cbn; lia). destruct (C _ _ _ He) as [(vs' & rep' & E & (n & N1 & N2 & N3 & N4) & _) _].
  injection E as <- <-. cbn in N1. assert (n = 20)%Z as -> by lia. cbn in N3. rewrite N3 in N4. cbn in N4. destruct rep as [r1 r2 r3]. cbn in *. congruence.
Qed.

(** ** Example: 16 points in four pieces.  The default run ends with nothing but undefined entries; five steps (-it 5) leave 8 at the ends and 30 in the middle. *)
Definition range16 (i len : nat) : list point := map (fun k => [Z.of_nat k]) (seq i len).
Definition lg16 : legion := mk_legion (fun s => if (s =? 1)%nat then range16 0 16 else []) (fun q => if (q =? 2)%nat then 1 else 0) (fun _ => 0)
  (fun q => if (q =? 2)%nat then [range16 0 4; range16 4 4; range16 8 4; range16 12 4] else []).
Lemma range16_in i len p : In p (range16 i len) <-> exists k, i <= k < i + len /\ p = [Z.of_nat k].
Proof. unfold range16. rewrite in_map_iff. split; intros [k [H1 H2]]; exists k; rewrite in_seq in *; auto. Qed.
Lemma range16_nodup i len : NoDup (range16 i len).
Proof. apply FinFun.Injective_map_NoDup; [intros a b E; injection E as E; lia|apply seq_NoDup]. Qed.
Lemma lg16_ok : legion_ok lg16.
Proof.
  split.
  - intros s. unfold lg16. cbn [is_points]. destruct (s =? 1)%nat; [apply range16_nodup|constructor].
  - intros q piece. unfold lg16. cbn [is_points part_pieces part_parent]. destruct (q =? 2)%nat; [|intros []]. cbn [Nat.eqb In].
    intros [<-|[<-|[<-|[<-|[]]]]]; (split; [apply range16_nodup|]; intros p Hp; apply range16_in in Hp; destruct Hp as [k [Hk ->]]; apply range16_in; exists k; split; [lia|reflexivity]).
Qed.
Lemma lg16_matrix : exists m, stencil_matrix exact cv_lt ROW_MAJOR (mk_rect [0] [15])%Z [([0]%Z, Some 2%R); ([-1]%Z, Some (-1)%R); ([1]%Z, Some (-1)%R)] 1 true m.
Proof.
  destruct (@linearized_csr_exists cv_lt ROW_MAJOR (mk_rect [0] [15])%Z [([0]%Z, Some 2%R); ([-1]%Z, Some (-1)%R); ([1]%Z, Some (-1)%R)] [([-1]%Z, Some (-1)%R); ([0]%Z, Some 2%R); ([1]%Z, Some (-1)%R)] 1) as [c Hc].
  - discriminate.
  - split; [reflexivity|intros [|i] Hi; cbn in *; lia].
  - repeat constructor.
  - split; [apply perm_swap|repeat constructor].
  - exists (CSR c). exact Hc.
Qed.
Example C89_example : forall st s, exists m red, legal_reduction exact red /\
  (exists x st' s' vs, ends (benchmark_program exact lg16 red (parse_options []) m 2) st s x st' s' /\ x = Finished vs (Some (mk_report 5 15 15)) /\
     forall i, i < 16 -> s' (at_point (v_sol vs) [Z.of_nat i]) = None) /\
  (exists x st' s' vs rep, ends (benchmark_program exact lg16 red (parse_options [(Fit, 7%Z); (Fit, 5%Z)]) m 2) st s x st' s' /\ x = Finished vs (Some rep) /\
     s' (at_point (v_sol vs) [0%Z]) = Some 8%R /\ s' (at_point (v_sol1 vs) [8%Z]) = Some 30%R).
Proof.
  intros st s. destruct lg16_matrix as [m Hm]. exists m, (fun _ l => fold_right (aadd exact) (a0 exact) l). set (red := fun _ l => _).
  assert (Hred : legal_reduction exact red) by (apply fold_right_legal). split; [exact Hred|].
  assert (Hd : partition_disjoint lg16 2).
  { intros c d pc pd p. unfold lg16. cbn [part_pieces Nat.eqb]. intros Hc Hd Pc Pd.
    do 4 (destruct c as [|c]; [injection Hc as <-; apply range16_in in Pc; destruct Pc as [i [Hi ->]]; do 4 (destruct d as [|d]; [injection Hd as <-; apply range16_in in Pd; destruct Pd as [j [Hj Ej]]; injection Ej as Ej; lia|]); destruct d; discriminate|]); destruct c; discriminate. }
  assert (Hc : partition_complete lg16 2).
  { intros p. unfold lg16. cbn [part_pieces part_parent is_points Nat.eqb]. intros Hp. apply range16_in in Hp. destruct Hp as [i [Hi ->]].
    destruct (Nat.lt_ge_cases i 4); [exists (range16 0 4)|destruct (Nat.lt_ge_cases i 8); [exists (range16 4 4)|destruct (Nat.lt_ge_cases i 12); [exists (range16 8 4)|exists (range16 12 4)]]];
      (split; [cbn [In]; tauto|apply range16_in; exists i; split; [lia|reflexivity]]). }
  assert (Hp : forall x, In x (is_points lg16 (part_parent lg16 2)) <-> exists i, i < 16 /\ x = [Z.of_nat i]).
  { intros x. unfold lg16. cbn [is_points part_parent Nat.eqb]. rewrite range16_in. split; intros [i [Hi E]]; exists i; (split; [lia|exact E]). }
  split.
  - destruct (@C89_default_run cv_lt lg16 red m 2 lg16_ok Hred Hd Hc Hp Hm st s) as [[[[x lns] st'] E] H]. destruct (some_end lns s) as [s' Hs']. assert (He : ends (benchmark_program exact lg16 red (parse_options []) m 2) st s x st' s') by (exists lns; auto).
    destruct (H x st' s' He) as (vs & Ex & HV). exists x, st', s', vs. split; [exact He|]. split; [exact Ex|]. intros i Hi. apply HV; [left; reflexivity|exact Hi].
  - destruct (@C89_benchmark_1d cv_lt lg16 red (parse_options [(Fit, 7%Z); (Fit, 5%Z)]) m 2 16 lg16_ok Hred Hd Hc eq_refl eq_refl ltac:(lia) Hp Hm eq_refl ltac:(cbn; lia) ltac:(cbn; lia) ltac:(cbn; lia) st s) as [[[[x lns] st'] E] H].
    destruct (some_end lns s) as [s' Hs']. assert (He : ends (benchmark_program exact lg16 red (parse_options [(Fit, 7%Z); (Fit, 5%Z)]) m 2) st s x st' s') by (exists lns; auto).
    destruct (H x st' s' 5) with (2 := He) as (vs & rep & Ex & HV); [exists 5%Z; cbn; lia|]. exists x, st', s', vs, rep. split; [exact He|]. split; [exact Ex|]. split.
    + assert (K := HV (v_sol vs) 0 ltac:(cbn; tauto) ltac:(lia)). cbn [Nat.min Nat.sub Nat.leb Nat.mul Nat.add Z.of_nat] in K. rewrite K. f_equal. rewrite !INR_IZR_INZ. cbn [Z.of_nat Pos.of_succ_nat Pos.succ]. lra.
    + assert (K := HV (v_sol1 vs) 8 ltac:(cbn; tauto) ltac:(lia)). cbn [Nat.min Nat.sub Nat.leb Nat.mul Nat.add Z.of_nat Pos.of_succ_nat Pos.succ] in K. rewrite K. f_equal. rewrite !INR_IZR_INZ. cbn [Z.of_nat Pos.of_succ_nat Pos.succ]. lra.
Qed.
