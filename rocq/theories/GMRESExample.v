(** GMRESExample: property C42, the residual can grow; and a system that meets the hypotheses of C41, C42, C58, C59. *)
From Coq Require Import Reals Lra.
From Verif Require Import Base Index Outcome Sched Async Arith Launch Vector PartitionSpec VectorFacts LaunchFacts Matrix MatrixSpec MatrixFacts
  MatvecFacts Builder BuilderFacts Exec ExactSum LinAlg CGSpec BiCGSpec GMRESSpec Planner PlannerFacts PlannerSetup Solvers PropsVector PropsMatrix PropsPlanner
  PropsSolver SolverFacts PropsCG PropsGMRES SolverExample.
Set Implicit Arguments.

Lemma diag_problem d0 d1 : exists red pl0, gmres_problem lg2 red (diag_calls d0 d1) ex_st pl0 ones_store zero one.
Proof.
  exists (fun _ l => fold_left (aadd exact) l (a0 exact)). destruct (diag_set_up d0 d1) as [pl0 Hs]. exists pl0.
  split; [exact lg2_ok|]. split; [apply C05_example_accepted|]. split; [exact Hs|]. split; [apply diag_real|]. split; [apply diag_some|]. split; [apply diag_x|apply diag_b].
Qed.
(** A symmetric positive definite system (4 times the identity, right-hand side (1, 1), initial guess zero) on which one
    GMRES(1) step makes the residual larger. *)
Theorem C42_residual_can_grow : exists lg red cs st pl0 s b x, gmres_problem lg red cs st pl0 s (fun _ => 0%R) b /\
  symmetric (unknowns lg cs) (operator cs) /\ positive_definite (unknowns lg cs) (operator cs) /\
  gmres_holds lg red cs st pl0 s 1 1 x /\
  (Rsum (fun u => b u * b u) (unknowns lg cs) <
   Rsum (fun u => (b u - apply_op (unknowns lg cs) (operator cs) x u) * (b u - apply_op (unknowns lg cs) (operator cs) x u)) (unknowns lg cs))%R.
Proof.
  destruct (diag_problem 4 4) as (red & pl0 & HP).
  exists lg2, red, (diag_calls 4 4), ex_st, pl0, ones_store, one, (sum_iter (unknowns lg2 (diag_calls 4 4)) (operator (diag_calls 4 4)) zero one 1 1).
  split; [exact HP|]. split; [apply diag_symmetric|]. split; [apply diag_positive; lra|].
  assert (R0 : forall u, In u [u0; u1] -> residual (unknowns lg2 (diag_calls 4 4)) (operator (diag_calls 4 4)) one zero u = 1%R).
  { intros u Hu. unfold residual. rewrite diag_unknowns. destruct Hu as [<-|[<-|[]]]; dsimp; ring. }
  assert (RR : ip (unknowns lg2 (diag_calls 4 4)) (residual (unknowns lg2 (diag_calls 4 4)) (operator (diag_calls 4 4)) one zero)
      (residual (unknowns lg2 (diag_calls 4 4)) (operator (diag_calls 4 4)) one zero) = 2%R).
  { rewrite diag_unknowns in *. dsimp. rewrite !R0 by (cbn; auto). ring. }
  split.
  - apply (@run_holds _ _ _ _ _ _ _ _ _ _ HP). intros j Hj. replace j with 0 by lia. split; [|intros i Hi; lia]. cbn [sum_iter]. rewrite RR. lra.
  - set (x := sum_iter (unknowns lg2 (diag_calls 4 4)) (operator (diag_calls 4 4)) zero one 1 1).
    assert (X : forall u, In u [u0; u1] -> x u = (1 / sqrt 2)%R).
    { intros u Hu. unfold x. cbn [sum_iter seq]. rewrite Rsum_cons, Rsum_nil. cbn [q arnoldi]. unfold normalise, norm. rewrite RR, (R0 u Hu). lra. }
    rewrite diag_unknowns, !Rsum_cons, !Rsum_nil. change (apply_op [u0; u1]) with (app_op [u0; u1]). rewrite diag_app0, diag_app1, !X by (cbn; auto).
    assert (S2 : (sqrt 2 * sqrt 2 = 2)%R) by (apply sqrt_sqrt; lra). assert (S1 : (1 < sqrt 2)%R) by (rewrite <- sqrt_1; apply sqrt_lt_1; lra).
    assert (T : (1 / sqrt 2 = sqrt 2 / 2)%R) by (field_simplify_eq; lra). rewrite T. nra.
Qed.
