(** SystemExample: two systems that meet the hypotheses of C101: diag(1, 2) on two pieces, and the same matrix added twice on one piece
    (so the operator is 2 diag(1, 2)) with three times the right-hand side. *)
From Coq Require Import Reals Lra.
From Verif Require Import Base Index Outcome Sched Async Arith Launch Vector PartitionSpec VectorFacts LaunchFacts Matrix MatrixSpec MatrixFacts
  MatvecFacts Builder BuilderFacts Exec ExactSum LinAlg CGSpec BiCGSpec GMRESSpec Planner PlannerFacts PlannerSetup Solvers PropsVector PropsMatrix PropsPlanner
  PropsSolver SolverFacts PropsCG PropsBiCG PropsGMRES SolverExample GMRESExample SolverExample2 PropsSystem.
Set Implicit Arguments.

Definition twice_calls : list (setup_call (option R)) :=
  [AddSol (v2 2 10); AddRhs (v2 2 20); AddMatrix (COO (diag_coo 1 2)) 0 0; AddMatrix (COO (diag_coo 1 2)) 0 0].
Notation tw := twice_calls.
Definition threes : store loc (option R) := fun l => match l with LVec 10 _ _ => Some 0%R | _ => Some 3%R end.
Lemma twice_well_formed : well_formed lg2 tw ex_st.
Proof.
  constructor.
  - cbn. intros v [<-|[<-|[]]]; (split; [|cbn; lia]); eexists 2, _, 0; reflexivity.
  - cbn. repeat (constructor; [cbn; intuition discriminate|]). constructor.
  - reflexivity.
  - cbn. intros m d r [E|[E|[]]]; injection E as <- <- <-; cbn; auto.
Qed.
Lemma twice_legal : legal tw.
Proof.
  intros before c after E. unfold twice_calls in E.
  do 4 (destruct before as [|? before]; cbn [app] in E; [injection E as <- <-; cbn [allowed sols_of rhss_of flat_map app length nth_error];
    repeat split; try lia; intros; repeat match goal with Hw : _ = Some _ |- _ => try discriminate Hw; injection Hw as <- end; auto|injection E as <- E]).
  destruct before; discriminate.
Qed.
Lemma twice_set_up : exists pl0, set_up lg2 tw ex_st pl0.
Proof.
  destruct (@C18_legal_calls_accepted _ lg2 tw) as [pl0 [E _]]; [| |exact twice_legal|exists pl0; split; [exact twice_well_formed|exact E]].
  - intros v Hv. apply (wf_vectors twice_well_formed v Hv).
  - intros m d r H. apply (wf_matrices twice_well_formed m d r H).
Qed.
Lemma twice_operator u v : operator tw u v = (2 * operator dc u v)%R.
Proof.
  unfold operator. change (mats_of tw) with (mats_of dc ++ mats_of dc). rewrite Rsum_app. ring.
Qed.
Lemma left_red_legal : legal_reduction exact left_red.
Proof. apply C05_example_accepted. Qed.
Example C101_example : exists pl0 pl0', system_ready lg2 left_red dc ex_st pl0 ones_store zero one /\
  system_ready lg2 left_red tw ex_st pl0' threes zero (fun _ => 3%R) /\
  proportional (unknowns lg2 dc) (unknowns lg2 tw) (operator dc) (operator tw) zero zero one (fun _ => 3%R) 2 (3 / 2) 3 /\
  proportional (unknowns lg2 dc) (unknowns lg2 tw) (operator dc) (operator tw) zero zero one (fun _ => 3%R) 2 1 3 /\
  (forall j, j < 2 -> cg_defined (unknowns lg2 dc) (operator dc) zero one j) /\
  (forall j, j < 1 -> bicg_defined (unknowns lg2 dc) (operator dc) zero one j) /\
  (* the solution of 2 diag(1, 2) x = (3, 3) *)
  forall r st s, ends (cg_run exact lg2 left_red pl0' 2) ex_st threes r st s ->
    s (at_point (v2 2 10) [0]%Z) = Some (3 / 2)%R /\ s (at_point (v2 2 10) [1]%Z) = Some (3 / 4)%R.
Proof.
  destruct C36_C38_example as (pl0 & Hs & Hl & Hre & Hn & Hx & Hb & _ & _ & Hd & E0 & E1). destruct twice_set_up as [pl0' Hs']. exists pl0, pl0'.
  assert (R1 : system_ready lg2 left_red dc ex_st pl0 ones_store zero one).
  { split; [exact Hl|]. split; [exact left_red_legal|]. repeat (split; [assumption|]). exact Hb. }
  assert (R2 : system_ready lg2 left_red tw ex_st pl0' threes zero (fun _ => 3%R)).
  { split; [exact Hl|]. split; [exact left_red_legal|]. split; [exact Hs'|]. split; [|split; [cbn; lia|split]].
    - intros m d r H kp Hk. cbn in H. destruct H as [E|[E|[]]]; injection E as <- <- <-; cbn in Hk; destruct Hk as [<-|[<-|[]]]; cbn; discriminate.
    - intros [|[|i]] v p Hv Hp; cbn in Hv; try discriminate. injection Hv as <-. reflexivity.
    - intros [|[|i]] v p Hv Hp; cbn in Hv; try discriminate. injection Hv as <-. reflexivity. }
  assert (P : proportional (unknowns lg2 dc) (unknowns lg2 tw) (operator dc) (operator tw) zero zero one (fun _ => 3%R) 2 (3 / 2) 3).
  { split; [apply Permutation_refl|]. split; [intros u v _ _; apply twice_operator|]. split; intros; lra. }
  split; [exact R1|]. split; [exact R2|]. split; [exact P|]. split; [destruct P as (P1 & P2 & _ & P4); split; [exact P1|split; [exact P2|split; [intros; lra|exact P4]]]|].
  split; [exact Hd|]. split.
  - intros j Hj. replace j with 0 by lia. exact (proj1 (proj2 (proj2 C40_C56_example))).
  - intros r st s E.
    destruct (@C101_cg lg2 left_red dc ex_st pl0 ones_store zero one lg2 left_red tw ex_st pl0' threes zero (fun _ => 3%R) 2 3 2 R1 R2 ltac:(lra) ltac:(lra) P Hd) as (A1 & _ & H).
    destruct (accepted_ends ones_store A1) as (r1 & st1 & s1 & B). destruct (H _ _ _ _ _ _ B E) as [S _].
    destruct (@C36_cg_is_textbook_cg lg2 left_red dc ex_st pl0 ones_store zero one 2 Hl left_red_legal Hs Hre Hn Hx Hb Hd) as [_ Q].
    destruct (Q _ _ _ B) as (X & _). split.
    + destruct (S 0 (v2 3 10) (v2 2 10) [0]%Z eq_refl eq_refl ltac:(cbn; tauto)) as (y & Y1 & ->).
      assert (Z : s1 (at_point (v2 3 10) [0]%Z) = Some 1%R) by (rewrite <- E0; exact (X 0 (v2 3 10) [0]%Z eq_refl ltac:(cbn; tauto))).
      rewrite Z in Y1. injection Y1 as <-. f_equal. lra.
    + destruct (S 0 (v2 3 10) (v2 2 10) [1]%Z eq_refl eq_refl ltac:(cbn; tauto)) as (y & Y1 & ->).
      assert (Z : s1 (at_point (v2 3 10) [1]%Z) = Some (1/2)%R) by (rewrite <- E1; exact (X 0 (v2 3 10) [1]%Z eq_refl ltac:(cbn; tauto))).
      rewrite Z in Y1. injection Y1 as <-. f_equal. lra.
Qed.
