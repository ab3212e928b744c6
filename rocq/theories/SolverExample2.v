(** SolverExample2: concrete systems that meet the hypotheses of C37, C39, C41, C57, C58 and C59 (beside those of SolverExample.v and GMRESExample.v). *)
From Coq Require Import Reals Lra.
From Coq Require Import Floats.SpecFloat.
From Verif Require Import Base Index Outcome Sched Async Arith Launch Vector PartitionSpec VectorFacts LaunchFacts Matrix MatrixSpec MatrixFacts
  MatvecFacts Builder BuilderFacts Exec ExactSum LinAlg CGSpec BiCGSpec GMRESSpec Planner PlannerFacts PlannerSetup Solvers PropsVector PropsMatrix PropsPlanner
  PropsSolver SolverFacts PropsCG PropsCGConv PropsBiCG PropsGMRES SolverExample GMRESExample PropsFloatCG.
Set Implicit Arguments.

Notation left_red := (fun (_ : nat) l => fold_left (aadd exact) l (a0 exact)).

(** ** C37.  diag(1, 2), right-hand side (1, 1), initial guess (1, 1): the recorded residual after one step is not the residual *)
Definition all_ones : store loc (option R) := fun _ => Some 1%R.
Example C37_example : exists pl0, legion_ok lg2 /\ legal_reduction exact left_red /\ set_up lg2 dc ex_st pl0 /\ real_entries dc /\ 0 < length (sols_of dc) /\
  vectors_hold lg2 all_ones (sols_of dc) one /\ vectors_hold lg2 all_ones (rhss_of dc) one /\
  (forall j, j < 2 -> cg_defined (unknowns lg2 dc) (operator dc) one one j) /\
  In u0 (unknowns lg2 dc) /\ apply_op (unknowns lg2 dc) (operator dc) one u0 = 1%R.
Proof.
  destruct (diag_set_up 1 2) as [pl0 Hs]. exists pl0. split; [exact lg2_ok|]. split; [apply C05_example_accepted|]. split; [exact Hs|]. split; [apply diag_real|]. split; [apply diag_some|].
  split; [intros [|[|i]] v p Hv Hp; cbn in Hv; try discriminate; reflexivity|]. split; [intros [|[|i]] v p Hv Hp; cbn in Hv; try discriminate; reflexivity|].
  rewrite diag_unknowns. split; [|split; [left; reflexivity|]].
  - intros [|[|j]] Hj; [| |lia]; unfold cg_defined; cbn [cg_iter cg_next it_p it_r it_x]; dsimp; cbv beta; dsimp; cbv beta; split; lra.
  - change (apply_op [u0; u1]) with (app_op [u0; u1]). rewrite diag_app0. ring.
Qed.

(** ** C39.  the residual of the system of C36_C38_example is zero after two steps *)
Example C39_example : forall u, In u (unknowns lg2 dc) -> it_r (cg_iter (unknowns lg2 dc) (operator dc) zero one 2) u = 0%R.
Proof.
  rewrite diag_unknowns. intros u [<-|[<-|[]]]; cbn [cg_iter cg_next it_p it_r it_x]; dsimp; cbv beta; dsimp; cbv beta; lra.
Qed.
(** in double: diag(1, 3) and a zero right-hand side *)
Example C39_zero_example : let red := left_sum (ieee 53 1024) in
  legion_ok lg2 /\ legal_reduction (ieee 53 1024) red /\ set_up lg2 diag64_calls ex_st diag64_planner /\ 0 < length (sols_of diag64_calls) /\
  entries_all is_finite64 diag64_calls /\ vectors_all is_zero64 lg2 (fun _ => f64_zero) (rhss_of diag64_calls) /\ rhss_of diag64_calls <> [].
Proof.
  intros red. split; [exact lg2_ok|]. split; [apply fold_left_legal|]. split; [split; [exact diag64_well_formed|reflexivity]|]. split; [cbn; lia|]. split; [|split].
  - intros m d r H kp Hk. cbn in H. destruct H as [E|[]]. injection E as <- <- <-. cbn in Hk. destruct Hk as [<-|[<-|[]]]; exact I.
  - intros v p Hv Hp. exact I.
  - discriminate.
Qed.

(** ** C57.  ((2, 1), (0, 1)), right-hand side (1, 1), initial guess zero: one step of BiCGStab gives the solution (0, 1) *)
Definition tri_coo : coo (option R) := mk_coo [[0];[1];[2]]%Z (fun kp => if mem kp [[2]]%Z then [1]%Z else [0]%Z) (fun kp => if mem kp [[0]]%Z then [0]%Z else [1]%Z)
  (fun kp => if mem kp [[0]]%Z then Some 2%R else Some 1%R).
Definition tri_calls : list (setup_call (option R)) := [AddSol (v2 3 10); AddRhs (v2 3 20); AddMatrix (COO tri_coo) 0 0].
Notation tc := tri_calls.
Lemma tri_well_formed : well_formed lg2 tc ex_st.
Proof.
  constructor.
  - cbn. intros v [<-|[<-|[]]]; (split; [|cbn; lia]); eexists 3, _, 0; reflexivity.
  - cbn. repeat (constructor; [cbn; intuition discriminate|]). constructor.
  - reflexivity.
  - cbn. intros m d r [E|[]]. injection E as <- <- <-. cbn. auto.
Qed.
Lemma tri_legal : legal tc.
Proof.
  intros before c after E. unfold tri_calls in E.
  do 3 (destruct before as [|? before]; cbn [app] in E; [injection E as <- <-; cbn [allowed sols_of rhss_of flat_map app length nth_error];
    repeat split; try lia; intros; repeat match goal with Hw : _ = Some _ |- _ => try discriminate Hw; injection Hw as <- end; auto|injection E as <- E]).
  destruct before; discriminate.
Qed.
Lemma tri_set_up : exists pl0, set_up lg2 tc ex_st pl0.
Proof.
  destruct (@C18_legal_calls_accepted _ lg2 tc) as [pl0 [E _]]; [| |exact tri_legal|exists pl0; split; [exact tri_well_formed|exact E]].
  - intros v Hv. apply (wf_vectors tri_well_formed v Hv).
  - intros m d r H. apply (wf_matrices tri_well_formed m d r H).
Qed.
Lemma tri_entries : operator tc u0 u0 = 2%R /\ operator tc u0 u1 = 1%R /\ operator tc u1 u0 = 0%R /\ operator tc u1 u1 = 1%R.
Proof.
  unfold operator. change (mats_of tc) with [(COO tri_coo, 0, 0)]. rewrite !Rsum_cons, !Rsum_nil. cbv beta iota.
  cbn [fst snd u0 u1 Nat.eqb andb]. unfold real_value.
  change (positions (COO tri_coo)) with [[0];[1];[2]]%Z. rewrite !Rsum_cons, !Rsum_nil.
  cbv beta iota. cbn [value tri_coo co_entry]. eval_ifs. repeat split; ring.
Qed.
Lemma tri_app f : app_op [u0; u1] (operator tc) f u0 = (2 * f u0 + f u1)%R /\ app_op [u0; u1] (operator tc) f u1 = f u1.
Proof. unfold app_op. rewrite !Rsum_cons, !Rsum_nil. destruct tri_entries as (-> & -> & -> & ->). split; ring. Qed.
Example C57_example : exists pl0 x, legion_ok lg2 /\ legal_reduction exact left_red /\ set_up lg2 tc ex_st pl0 /\ real_entries tc /\ 0 < length (sols_of tc) /\
  vectors_hold lg2 ones_store (sols_of tc) zero /\ vectors_hold lg2 ones_store (rhss_of tc) one /\
  (forall c st' s', ends (bicg_run exact lg2 left_red pl0 1) ex_st ones_store c st' s' -> vectors_hold lg2 s' (sols_of tc) x) /\
  (forall u, In u (unknowns lg2 tc) -> apply_op (unknowns lg2 tc) (operator tc) (fun v => x v - 0)%R u = 1%R) /\ x u0 = 0%R /\ x u1 = 1%R.
Proof.
  destruct tri_set_up as [pl0 Hs]. exists pl0, (b_x (bicg_iter (unknowns lg2 tc) (operator tc) zero one 1)).
  assert (Hre : real_entries tc) by (intros m d r H kp Hk; cbn in H; destruct H as [E|[]]; injection E as <- <- <-; cbn in Hk; destruct Hk as [<-|[<-|[<-|[]]]]; cbn; discriminate).
  assert (Hn : 0 < length (sols_of tc)) by (cbn; lia).
  assert (Hx : vectors_hold lg2 ones_store (sols_of tc) zero) by (intros [|[|i]] v p Hv Hp; cbn in Hv; try discriminate; injection Hv as <-; reflexivity).
  assert (Hb : vectors_hold lg2 ones_store (rhss_of tc) one) by (intros [|[|i]] v p Hv Hp; cbn in Hv; try discriminate; injection Hv as <-; reflexivity).
  change (unknowns lg2 tc) with [u0; u1].
  assert (A0 := fun f => proj1 (tri_app f)). assert (A1 := fun f => proj2 (tri_app f)).
  assert (H : bicg_defined [u0; u1] (operator tc) zero one 0 /\ b_x (bicg_iter [u0; u1] (operator tc) zero one 1) u0 = 0%R /\ b_x (bicg_iter [u0; u1] (operator tc) zero one 1) u1 = 1%R).
  { unfold bicg_defined, half_defined. cbn [bicg_iter]. unfold bicg_next. cbn [b_rho b_alpha b_omega b_x b_r b_p b_v].
    unfold b_omega', b_t. rewrite ?diag_ip, ?A0, ?A1. unfold b_s, b_alpha', b_v'. rewrite ?diag_ip, ?A0, ?A1. unfold b_p', b_beta, b_rho'. rewrite ?diag_ip, ?A0, ?A1. cbn [b_rho b_alpha b_omega b_x b_r b_p b_v].
    repeat split; lra. }
  destruct H as (D & X0 & X1).
  split; [exact lg2_ok|]. split; [apply C05_example_accepted|]. split; [exact Hs|]. split; [exact Hre|]. split; [exact Hn|]. split; [exact Hx|]. split; [exact Hb|].
  split; [|split; [|split; [exact X0|exact X1]]].
  - intros c st' s' He. apply (@C40_bicgstab_is_textbook lg2 left_red tc ex_st pl0 ones_store _ _ 1 lg2_ok (proj1 C05_example_accepted) Hs Hre Hn Hx Hb) in He; [apply He|].
    intros j Hj. replace j with 0 by lia. exact D.
  - intros u Hu. change (apply_op [u0; u1]) with (app_op [u0; u1]). destruct Hu as [<-|[<-|[]]]; [rewrite A0|rewrite A1]; rewrite ?X0, ?X1; ring.
Qed.

(** ** C41, C58.  diag(1, 2), right-hand side (1, 1), initial guess zero: a restart length of 2 works for one cycle, 3 is larger than the number of unknowns *)
Example C41_C58_example : exists pl0 x, gmres_problem lg2 left_red dc ex_st pl0 ones_store zero one /\ gmres_holds lg2 left_red dc ex_st pl0 ones_store 2 1 x /\
  length (unknowns lg2 dc) < 3.
Proof.
  destruct (diag_set_up 1 2) as [pl0 Hs].
  assert (HP : gmres_problem lg2 left_red dc ex_st pl0 ones_store zero one).
  { split; [exact lg2_ok|]. split; [apply C05_example_accepted|]. split; [exact Hs|]. split; [apply diag_real|]. split; [apply diag_some|]. split; [apply diag_x|apply diag_b]. }
  exists pl0, (sum_iter (unknowns lg2 dc) (operator dc) zero one 2 1). split; [exact HP|]. split; [|rewrite diag_unknowns; cbn; lia].
  apply (@run_holds _ _ _ _ _ _ _ _ _ _ HP). intros j Hj. replace j with 0 by lia. rewrite diag_unknowns. unfold sum_defined. cbn [sum_iter].
  set (r := residual [u0; u1] (operator dc) one zero).
  assert (R0 : r u0 = 1%R) by (unfold r, residual; rewrite diag_app0; ring). assert (R1 : r u1 = 1%R) by (unfold r, residual; rewrite diag_app1; ring).
  assert (S2 : (sqrt 2 * sqrt 2 = 2)%R) by (apply sqrt_sqrt; lra). assert (S0 : (0 < sqrt 2)%R) by (apply sqrt_lt_R0; lra).
  assert (RR : norm [u0; u1] r = sqrt 2) by (unfold norm; rewrite diag_ip, R0, R1; f_equal; ring).
  assert (Q0 : q [u0; u1] (operator dc) r 0 u0 = (1 / sqrt 2)%R) by (cbn [q arnoldi]; unfold normalise; rewrite RR, R0; reflexivity).
  assert (Q1 : q [u0; u1] (operator dc) r 0 u1 = (1 / sqrt 2)%R) by (cbn [q arnoldi]; unfold normalise; rewrite RR, R1; reflexivity).
  assert (I2 : (1 / sqrt 2 * (1 / sqrt 2) = 1 / 2)%R) by (rewrite <- S2 at 3; field; lra).
  split; [rewrite diag_ip, R0, R1; lra|]. intros i Hi. replace i with 0 by lia.
  unfold w, project_out. cbn [seq]. rewrite diag_ip. cbv beta. rewrite !Rsum_cons, !Rsum_nil, !diag_ip, !diag_app0, !diag_app1, Q0, Q1.
  set (t := (1 / sqrt 2)%R) in *. nra.
Qed.

(** ** C59.  sqrt 2 times the identity, right-hand side (1, 1), initial guess zero: one step of GMRES(1) gives the solution *)
Example C59_example : exists pl0 x, gmres_problem lg2 left_red (diag_calls (sqrt 2) (sqrt 2)) ex_st pl0 ones_store zero one /\
  gmres_holds lg2 left_red (diag_calls (sqrt 2) (sqrt 2)) ex_st pl0 ones_store 1 1 x /\
  forall u, In u (unknowns lg2 (diag_calls (sqrt 2) (sqrt 2))) -> apply_op (unknowns lg2 (diag_calls (sqrt 2) (sqrt 2))) (operator (diag_calls (sqrt 2) (sqrt 2))) x u = 1%R.
Proof.
  set (cs := diag_calls (sqrt 2) (sqrt 2)). destruct (diag_set_up (sqrt 2) (sqrt 2)) as [pl0 Hs].
  assert (HP : gmres_problem lg2 left_red cs ex_st pl0 ones_store zero one).
  { split; [exact lg2_ok|]. split; [apply C05_example_accepted|]. split; [exact Hs|]. split; [apply diag_real|]. split; [apply diag_some|]. split; [apply diag_x|apply diag_b]. }
  assert (S2 : (sqrt 2 * sqrt 2 = 2)%R) by (apply sqrt_sqrt; lra). assert (S0 : (0 < sqrt 2)%R) by (apply sqrt_lt_R0; lra).
  change (unknowns lg2 cs) with [u0; u1]. set (r := residual [u0; u1] (operator cs) one zero).
  assert (R0 : r u0 = 1%R) by (unfold r, residual, cs; rewrite diag_app0; ring). assert (R1 : r u1 = 1%R) by (unfold r, residual, cs; rewrite diag_app1; ring).
  assert (RR : ip [u0; u1] r r = 2%R) by (rewrite diag_ip, R0, R1; ring).
  exists pl0, (sum_iter (unknowns lg2 cs) (operator cs) zero one 1 1). split; [exact HP|]. change (unknowns lg2 cs) with [u0; u1]. split.
  - apply (@run_holds _ _ _ _ _ _ _ _ _ _ HP). intros j Hj. replace j with 0 by lia. split; [|intros i Hi; lia]. change (ip [u0; u1] r r <> 0)%R. rewrite RR. lra.
  - assert (X : forall u, In u [u0; u1] -> sum_iter [u0; u1] (operator cs) zero one 1 1 u = (1 / sqrt 2)%R).
    { intros u Hu. cbn [sum_iter seq]. rewrite Rsum_cons, Rsum_nil. fold r. cbn [q arnoldi]. unfold normalise, norm. rewrite RR. destruct Hu as [<-|[<-|[]]]; rewrite ?R0, ?R1; lra. }
    intros u Hu. change (apply_op [u0; u1]) with (app_op [u0; u1]). destruct Hu as [<-|[<-|[]]]; unfold cs; rewrite ?diag_app0, ?diag_app1; fold cs; rewrite X by (cbn; auto); field; lra.
Qed.

(** ** C11.  Two rows, two entries: entry [0] is in row 0's interval, entry [1] (value [e]) in none.  The derived partition ignores it, a supplied
    partition that contains it makes the product abort. *)
Definition gap_csr (e : option R) : csr (option R) := mk_csr [[0];[1]]%Z (fun _ => [1]%Z) (fun kp => if mem kp [[0]]%Z then Some 5%R else e) 1
  (fun p => if mem p [[0]]%Z then mk_rect [0]%Z [0]%Z else mk_rect [1]%Z [0]%Z).
Example C11_example : forall e, exists ln, derived_matvec exact lg2 (CSR (gap_csr e)) (v2 3 10) (v2 3 11) = Ok ln /\
  (forall s s', s (at_point (v2 3 10) [0]%Z) = Some 1%R -> s (at_point (v2 3 11) [1]%Z) = Some 7%R -> launches_end [ln] s s' -> s' (at_point (v2 3 10) [0]%Z) = Some 36%R) /\
  matvec exact lg2 (CSR (gap_csr e)) (v2 3 10) (v2 3 11) [[[0]];[[1]]]%Z [[[0];[1]];[[0];[1]]]%Z = AssertFail.
Proof.
  intros e. eexists. split; [reflexivity|]. split.
  - intros s s' H0 H1 He. assert (Hc : constructed lg2 (v2 3 10)) by (exists 3, 10, 0; reflexivity).
    assert (Hd : derived_matvec exact lg2 (CSR (gap_csr e)) (v2 3 10) (v2 3 11) = Ok _) by reflexivity.
    assert (Hg := @derived_good _ exact lg2 lg2_ok (CSR (gap_csr e)) (v2 3 10) (v2 3 11) _ Hc Hd).
    assert (Hgs : Forall good_launch [_]) by (constructor; [exact Hg|constructor]).
    rewrite (launches_end_effect Hgs He), effect_one. cbn. cbn in H0, H1. rewrite H0, H1. cbn. f_equal. ring.
  - apply (@C11_uncovered_entry_in_supplied_partition_aborts _ exact lg2 (gap_csr e) (v2 3 10) (v2 3 11) _ _ 1 [[1]]%Z [[1]]%Z [1]%Z);
      try reflexivity; [left; reflexivity|]. intros r [<-|[]]. reflexivity.
Qed.

(** ** C53, C54.  diag(1, 2): a short program of planner operations, and two steps of each solver *)
Example C53_C54_example : exists pl0 pl, set_up lg2 dc ex_st pl0 /\ working lg2 dc 2 pl /\ 0 < length (sols_of dc) /\
  (forall x : stmt (option R), In x [SMatvec 2 0; SDot 2 1; SMatvec 3 2] -> stmt_ok (2 + 2) x) /\
  (forall st s, exists st' s', one_at_a_time exact lg2 left_red pl [SMatvec 2 0; SDot 2 1; SMatvec 3 2] st s st' s') /\
  runs_deterministically (cg_run exact lg2 left_red pl0 2) ex_st ones_store /\
  runs_deterministically (bicg_run exact lg2 left_red pl0 2) ex_st ones_store /\
  runs_deterministically (gmres_run exact lg2 left_red pl0 2 2) ex_st ones_store.
Proof.
  destruct (diag_set_up 1 2) as [pl0 Hs]. exists pl0.
  destruct (@C18_allocate_workspace _ lg2 dc 2 ex_st pl0 Hs) as [pl [st' [H _]]].
  assert (Hw : working lg2 dc 2 pl) by (exists ex_st, pl0, [], st'; auto).
  assert (Hok : forall x : stmt (option R), In x [SMatvec 2 0; SDot 2 1; SMatvec 3 2] -> stmt_ok (2 + 2) x).
  { intros x [<-|[<-|[<-|[]]]]; cbn; lia. }
  exists pl. split; [exact Hs|]. split; [exact Hw|]. split; [apply diag_some|]. split; [exact Hok|]. split; [|split; [|split]].
  - intros st s. destruct (@C53_program_order _ exact lg2 left_red dc 2 pl _ lg2_ok Hw (diag_some 1 2) Hok) as [Ha [He _]].
    destruct (accepted_ends s (Ha st)) as [[] [st1 [s1 E]]]. exists st1, s1. apply He, E.
  - apply C54_cg_runs with (cs := dc); [exact lg2_ok|exact Hs|apply diag_some].
  - apply C54_bicgstab_runs with (cs := dc); [exact lg2_ok|exact Hs|apply diag_some].
  - apply C54_gmres_runs with (cs := dc); [exact lg2_ok|exact Hs|apply diag_some].
Qed.
