(** SolverExample: a concrete system (two unknowns, diagonal matrix) that meets the hypotheses of the solver theorems. *)
From Coq Require Import Reals Lra.
From Verif Require Import Base Index Outcome Sched Async Arith Launch Vector PartitionSpec VectorFacts LaunchFacts Matrix MatrixSpec MatrixFacts
  MatvecFacts Builder BuilderFacts Exec ExactSum LinAlg CGSpec BiCGSpec Planner PlannerFacts PlannerSetup Solvers PropsVector PropsMatrix PropsPlanner
  PropsCG.
Set Implicit Arguments.

(** the matrix diag(d0, d1) in COO form *)
Definition diag_coo (d0 d1 : R) : coo (option R) := mk_coo [[0];[1]]%Z (fun kp => kp) (fun kp => kp) (fun kp => if mem kp [[0]]%Z then Some d0 else Some d1).
Definition diag_calls (d0 d1 : R) : list (setup_call (option R)) := [AddSol (v2 3 10); AddRhs (v2 3 20); AddMatrix (COO (diag_coo d0 d1)) 0 0].
Definition u0 : unknown := (0, [0]%Z).
Definition u1 : unknown := (0, [1]%Z).
(** a store in which the solution is zero and every entry of the right-hand side is one *)
Definition ones_store : store loc (option R) := fun l => match l with LVec 10 _ _ => Some 0%R | _ => Some 1%R end.

Section Diag.
Variables d0 d1 : R.
Notation cs := (diag_calls d0 d1).
Lemma diag_well_formed : well_formed lg2 cs ex_st.
Proof.
  constructor.
  - cbn. intros v [<-|[<-|[]]]; (split; [|cbn; lia]); eexists 3, _, 0; reflexivity.
  - cbn. repeat (constructor; [cbn; intuition discriminate|]). constructor.
  - reflexivity.
  - cbn. intros m d r [E|[]]. injection E as <- <- <-. cbn. auto.
Qed.
Lemma diag_legal : legal cs.
Proof.
  intros before c after E. unfold diag_calls in E.
  do 3 (destruct before as [|? before]; cbn [app] in E; [injection E as <- <-; cbn [allowed sols_of rhss_of flat_map app length nth_error];
    repeat split; try lia; intros; repeat match goal with Hw : _ = Some _ |- _ => try discriminate Hw; injection Hw as <- end; auto|injection E as <- E]).
  destruct before; discriminate.
Qed.
Lemma diag_set_up : exists pl0, set_up lg2 cs ex_st pl0.
Proof.
  destruct (@C18_legal_calls_accepted _ lg2 cs) as [pl0 [E _]]; [| |exact diag_legal|exists pl0; split; [exact diag_well_formed|exact E]].
  - intros v Hv. apply (wf_vectors diag_well_formed v Hv).
  - intros m d r H. apply (wf_matrices diag_well_formed m d r H).
Qed.
Lemma diag_real : real_entries cs.
Proof. intros m d r H kp Hk. cbn in H. destruct H as [E|[]]; injection E as <- <- <-. cbn in Hk. destruct Hk as [<-|[<-|[]]]; cbn; discriminate. Qed.
Lemma diag_some : 0 < length (sols_of cs).
Proof. cbn. lia. Qed.
Lemma diag_unknowns : unknowns lg2 cs = [u0; u1].
Proof. reflexivity. Qed.
Lemma diag_x : vectors_hold lg2 ones_store (sols_of cs) (fun _ => 0%R).
Proof. intros [|[|i]] v p Hv Hp; cbn in Hv; try discriminate. injection Hv as <-. reflexivity. Qed.
Lemma diag_b : vectors_hold lg2 ones_store (rhss_of cs) (fun _ => 1%R).
Proof. intros [|[|i]] v p Hv Hp; cbn in Hv; try discriminate. injection Hv as <-. reflexivity. Qed.
Lemma diag_entries : operator cs u0 u0 = d0 /\ operator cs u0 u1 = 0%R /\ operator cs u1 u0 = 0%R /\ operator cs u1 u1 = d1.
Proof.
  unfold operator. change (mats_of cs) with [(COO (diag_coo d0 d1), 0, 0)]. rewrite !Rsum_cons, !Rsum_nil. cbv beta iota.
  cbn [fst snd u0 u1 Nat.eqb andb]. unfold real_value.
  change (positions (COO (diag_coo d0 d1))) with [[0];[1]]%Z. rewrite !Rsum_cons, !Rsum_nil.
  cbv beta iota. cbn [value diag_coo co_entry]. eval_ifs. repeat split; ring.
Qed.
Lemma diag_ip f g : ip [u0; u1] f g = (f u0 * g u0 + f u1 * g u1)%R.
Proof. unfold ip. rewrite !Rsum_cons, Rsum_nil. ring. Qed.
Lemma diag_app0 f : app_op [u0; u1] (operator cs) f u0 = (d0 * f u0)%R.
Proof. unfold app_op. rewrite !Rsum_cons, Rsum_nil. destruct diag_entries as (-> & -> & _ & _). ring. Qed.
Lemma diag_app1 f : app_op [u0; u1] (operator cs) f u1 = (d1 * f u1)%R.
Proof. unfold app_op. rewrite !Rsum_cons, Rsum_nil. destruct diag_entries as (_ & _ & -> & ->). ring. Qed.
Lemma diag_symmetric : symmetric (unknowns lg2 cs) (operator cs).
Proof. rewrite diag_unknowns. destruct diag_entries as (_ & E1 & E2 & _). intros u v [<-|[<-|[]]] [<-|[<-|[]]]; congruence. Qed.
Lemma diag_positive : (0 < d0)%R -> (0 < d1)%R -> positive_definite (unknowns lg2 cs) (operator cs).
Proof.
  rewrite diag_unknowns. intros H0 H1 x Hx. rewrite diag_ip, diag_app0, diag_app1.
  assert (x u0 <> 0 \/ x u1 <> 0)%R.
  { destruct (Req_dec (x u0) 0) as [E0|]; [|auto]. destruct (Req_dec (x u1) 0) as [E1|]; [|auto]. exfalso. apply Hx. intros u [<-|[<-|[]]]; assumption. }
  assert (0 <= d0 * (x u0 * x u0))%R by (apply Rmult_le_pos; [lra|apply Rle_0_sqr]). assert (0 <= d1 * (x u1 * x u1))%R by (apply Rmult_le_pos; [lra|apply Rle_0_sqr]).
  destruct H as [H|H].
  - assert (0 < d0 * (x u0 * x u0))%R by (apply Rmult_lt_0_compat; [exact H0|]; destruct (Rtotal_order (x u0) 0) as [?|[?|?]]; nra). lra.
  - assert (0 < d1 * (x u1 * x u1))%R by (apply Rmult_lt_0_compat; [exact H1|]; destruct (Rtotal_order (x u1) 0) as [?|[?|?]]; nra). lra.
Qed.
End Diag.

(** For diag(1, 2) and b = (1, 1): *)
Notation dc := (diag_calls 1 2).
Notation zero := (fun _ : unknown => 0%R).
Notation one := (fun _ : unknown => 1%R).
Ltac dsimp := rewrite ?diag_unknowns, ?diag_ip, ?diag_app0, ?diag_app1 in *.
(** ... both steps of CG are defined (and reach the solution (1, 1/2)); *)
Example C36_C38_example : exists pl0, set_up lg2 dc ex_st pl0 /\ legion_ok lg2 /\ real_entries dc /\ 0 < length (sols_of dc) /\
  vectors_hold lg2 ones_store (sols_of dc) zero /\ vectors_hold lg2 ones_store (rhss_of dc) one /\
  symmetric (unknowns lg2 dc) (operator dc) /\ positive_definite (unknowns lg2 dc) (operator dc) /\
  (forall j, j < 2 -> cg_defined (unknowns lg2 dc) (operator dc) zero one j) /\
  it_x (cg_iter (unknowns lg2 dc) (operator dc) zero one 2) u0 = 1%R /\ it_x (cg_iter (unknowns lg2 dc) (operator dc) zero one 2) u1 = (1/2)%R.
Proof.
  destruct (diag_set_up 1 2) as [pl0 Hs]. exists pl0. split; [exact Hs|]. split; [exact lg2_ok|]. split; [apply diag_real|]. split; [apply diag_some|].
  split; [apply diag_x|]. split; [apply diag_b|]. split; [apply diag_symmetric|]. split; [apply diag_positive; lra|]. rewrite diag_unknowns.
  split; [|split].
  - intros [|[|j]] Hj; [| |lia]; unfold cg_defined; cbn [cg_iter cg_next it_p it_r it_x]; dsimp; cbv beta; dsimp; cbv beta.
    + split; lra.
    + split; lra.
  - cbn [cg_iter cg_next it_p it_r it_x]; dsimp; cbv beta; dsimp; cbv beta. lra.
  - cbn [cg_iter cg_next it_p it_r it_x]; dsimp; cbv beta; dsimp; cbv beta. lra.
Qed.
(** ... the first step of BiCGStab and the first half of the second are defined; the half step reaches (1, 1/2). *)
Example C40_C56_example : let us := unknowns lg2 dc in let a := operator dc in let t := bicg_iter us a zero one in
  us <> [] /\ length us = 2 /\ bicg_defined us a zero one 0 /\ half_defined us a one (t 1) /\
  (b_x (t 1%nat) u0 + b_alpha' us a one (t 1%nat) * b_p' us one (t 1%nat) u0 = 1)%R.
Proof.
  cbv zeta. split; [discriminate|]. split; [reflexivity|]. rewrite diag_unknowns.
  assert (H : forall u, u = u0 \/ u = u1 -> bicg_defined [u0; u1] (operator dc) zero one 0 /\
    let t := bicg_iter [u0; u1] (operator dc) zero one 1 in b_rho t = 2%R /\ b_alpha t = (2/3)%R /\ b_omega t = (3/5)%R /\
    b_x t u0 = (13/15)%R /\ b_x t u1 = (7/15)%R /\
    b_r t u0 = (2/15)%R /\ b_r t u1 = (1/15)%R /\ b_p t u0 = 1%R /\ b_p t u1 = 1%R /\ b_v t u0 = 1%R /\ b_v t u1 = 2%R).
  { intros u Hu. unfold bicg_defined, half_defined. cbn [bicg_iter]. unfold bicg_next. cbn [b_rho b_alpha b_omega b_x b_r b_p b_v].
    unfold b_omega', b_t. dsimp. unfold b_s, b_alpha', b_v'. dsimp. unfold b_p', b_beta, b_rho'. dsimp. cbn [b_rho b_alpha b_omega b_x b_r b_p b_v].
    repeat split; lra. }
  destruct (H u0 (or_introl eq_refl)) as (D & E1 & E2 & E3 & E4 & E5 & E6 & E7 & E8 & E9 & E10 & E11). cbv zeta in *. set (t := bicg_iter [u0; u1] (operator dc) zero one 1) in *.
  split; [exact D|]. unfold half_defined. unfold b_alpha', b_v'. dsimp. unfold b_p', b_beta, b_rho'. dsimp. rewrite E1, E2, E3, E4, E6, E7, E8, E9, E10, E11.
  repeat split; lra.
Qed.
