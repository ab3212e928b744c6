(** FloatBiCG: one BiCGStab step in IEEE arithmetic, as formulas; the residual gap. *)
From Coq Require Import Reals Lra Lia ZArith.
From Coq Require Import Floats.SpecFloat.
From Verif Require Import Base Index Outcome Sched Async Arith Launch Vector PartitionSpec VectorFacts LaunchFacts Matrix MatrixSpec MatrixFacts
  MatvecFacts Builder BuilderFacts Exec ExactSum LinAlg Planner PlannerFacts PlannerSetup Solvers PropsVector PropsMatrix PropsPlanner PropsSolver SolverFacts PropsCG PropsCGConv
  Float FloatSum PropsFloat FloatPlanner FloatCGSpec PropsFloatCG FloatOps FloatBiCGSpec.
Set Implicit Arguments.
Local Open Scope R_scope.

Section Step.
Variables p e : Z.
Hypothesis Hpe : format p e.
Variable P : Type.
Variable U : list P.
Variables a mag : P -> P -> R.
Variable count : P -> nat.
Variable u0 : P.
Hypothesis Hu0 : In u0 U.
Variable b : P -> spec_float.
Variable neg1 : spec_float.
Hypothesis Fn : is_float p e neg1.
Hypothesis En : fvalue neg1 = -1.
Definition near_product (x q : P -> spec_float) : Prop := forall u, In u U -> is_float p e (q u) /\
  (is_number (q u) -> Rabs (fvalue (q u) - app_op U a (fun w => fvalue (x w)) u) <= sum_error p e (count u) (app_op U mag (fun w => Rabs (fvalue (x w))) u)).
Definition dot_terms (x y : P -> spec_float) : list R := map (fun u => fvalue (x u) * fvalue (y u)) U.
(** the formulas of one step, whether or not the values are finite *)
Record bform (t : fbiterate P) (d : fbdata P) (t' : fbiterate P) : Prop := mk_bform {
  bf_rho : approx p e False (dot_terms (fb_r t) b) (fb_rho t');
  bf_t1 : fb_t1 d = SFdiv p e (fb_rho t') (fb_rho t);
  bf_t2 : fb_t2 d = SFdiv p e (fb_alpha t) (fb_omega t);
  bf_beta : fb_beta d = SFmul p e (fb_t1 d) (fb_t2 d);
  bf_p1 : forall u, fb_p1 d u = sf_fma p e (SFopp (fb_omega t)) (fb_v t u) (fb_p t u);
  bf_p : forall u, fb_p t' u = sf_fma p e (fb_beta d) (fb_p1 d u) (fb_r t u);
  bf_v : near_product (fb_p t') (fb_v t');
  bf_sigma : approx p e False (dot_terms b (fb_v t')) (fb_sigma d);
  bf_s : forall u, fb_s d u = sf_fma p e (SFdiv p e (SFmul p e neg1 (fb_rho t')) (fb_sigma d)) (fb_v t' u) (fb_r t u);
  bf_alpha : fb_alpha t' = SFdiv p e (fb_rho t') (fb_sigma d);
  bf_t : near_product (fb_s d) (fb_t d);
  bf_tau : approx p e False (dot_terms (fb_s d) (fb_t d)) (fb_tau d);
  bf_nu : approx p e False (dot_terms (fb_t d) (fb_t d)) (fb_nu d);
  bf_omega : fb_omega t' = SFdiv p e (fb_tau d) (fb_nu d);
  bf_x1 : forall u, fb_x1 d u = sf_fma p e (fb_alpha t') (fb_p t' u) (fb_x t u);
  bf_x : forall u, fb_x t' u = sf_fma p e (fb_omega t') (fb_s d u) (fb_x1 d u);
  bf_r : forall u, fb_r t' u = sf_fma p e (SFopp (fb_omega t')) (fb_t d u) (fb_s d u) }.
Record floats (t : fbiterate P) : Prop := mk_floats {
  fl_x : forall u, In u U -> is_float p e (fb_x t u);
  fl_r : forall u, In u U -> is_float p e (fb_r t u);
  fl_p : forall u, In u U -> is_float p e (fb_p t u);
  fl_v : forall u, In u U -> is_float p e (fb_v t u);
  fl_rho : is_float p e (fb_rho t); fl_alpha : is_float p e (fb_alpha t); fl_omega : is_float p e (fb_omega t) }.
Record dfloats (d : fbdata P) : Prop := mk_dfloats {
  fl_t1 : is_float p e (fb_t1 d); fl_t2 : is_float p e (fb_t2 d); fl_beta : is_float p e (fb_beta d);
  fl_p1 : forall u, In u U -> is_float p e (fb_p1 d u);
  fl_sigma : is_float p e (fb_sigma d);
  fl_s : forall u, In u U -> is_float p e (fb_s d u);
  fl_t : forall u, In u U -> is_float p e (fb_t d u);
  fl_tau : is_float p e (fb_tau d); fl_nu : is_float p e (fb_nu d);
  fl_x1 : forall u, In u U -> is_float p e (fb_x1 d u) }.
Lemma bform_floats t d t' : floats t -> bform t d t' -> floats t' /\ dfloats d.
Proof.
  destruct Hpe as [Hp He]. intros [X1 X2 X3 X4 X5 X6 X7] [F1 F2 F3 F4 F5 F6 F7 F8 F9 F10 F11 F12 F13 F14 F15 F16 F17].
  assert (Y1 : is_float p e (fb_rho t')) by apply F1.
  assert (Y2 : is_float p e (fb_t1 d)) by (rewrite F2; apply div_float; assumption).
  assert (Y3 : is_float p e (fb_t2 d)) by (rewrite F3; apply div_float; assumption).
  assert (Y4 : is_float p e (fb_beta d)) by (rewrite F4; apply mul_float; assumption).
  assert (Y5 : forall u, In u U -> is_float p e (fb_p1 d u)) by (intros u Hu; rewrite F5; apply fma_float; auto; apply opp_float; assumption).
  assert (Y6 : forall u, In u U -> is_float p e (fb_p t' u)) by (intros u Hu; rewrite F6; apply fma_float; auto).
  assert (Y7 : forall u, In u U -> is_float p e (fb_v t' u)) by (intros u Hu; apply (F7 u Hu)).
  assert (Y8 : is_float p e (fb_sigma d)) by apply F8.
  assert (Y9 : forall u, In u U -> is_float p e (fb_s d u)) by (intros u Hu; rewrite F9; apply fma_float; auto; apply div_float; auto; apply mul_float; auto).
  assert (Y10 : is_float p e (fb_alpha t')) by (rewrite F10; apply div_float; assumption).
  assert (Y11 : forall u, In u U -> is_float p e (fb_t d u)) by (intros u Hu; apply (F11 u Hu)).
  assert (Y12 : is_float p e (fb_tau d)) by apply F12. assert (Y13 : is_float p e (fb_nu d)) by apply F13.
  assert (Y14 : is_float p e (fb_omega t')) by (rewrite F14; apply div_float; assumption).
  assert (Y15 : forall u, In u U -> is_float p e (fb_x1 d u)) by (intros u Hu; rewrite F15; apply fma_float; auto).
  assert (Y16 : forall u, In u U -> is_float p e (fb_x t' u)) by (intros u Hu; rewrite F16; apply fma_float; auto).
  assert (Y17 : forall u, In u U -> is_float p e (fb_r t' u)) by (intros u Hu; rewrite F17; apply fma_float; auto; apply opp_float; assumption).
  split; constructor; assumption.
Qed.
Definition finite_xr (t : fbiterate P) : Prop := forall u, In u U -> is_number (fb_x t u) /\ is_number (fb_r t u).
Lemma quotient_of num den f : is_float p e num -> is_float p e den -> approx p e False (map f U) den -> is_number (SFdiv p e num den) -> quotient p e U num den (SFdiv p e num den) f.
Proof.
  destruct Hpe as [Hp He]. intros F1 F2 HA Nq. assert (Fq : is_float p e (SFdiv p e num den)) by (apply div_float; assumption).
  destruct (div_cases Hp He F1 F2 Nq) as [N [(N1 & N2 & N3)|(N1 & N2)]]; [left|right].
  - split; [apply summed_of_approx; assumption|]. split; [exact N2|]. split; [exact Fq|]. split; [exact Nq|]. rewrite N3. apply rnd_error; assumption.
  - auto.
Qed.
Lemma near_product_number x q : near_product x q -> (forall u, In u U -> is_number (q u)) -> multiplied p e U a mag count x q.
Proof. intros H N u Hu. destruct (H u Hu) as [A B]. split; [exact A|]. split; [exact (N u Hu)|]. exact (B (N u Hu)). Qed.
(** if solution and residual are finite after the step, then they were before it, and the step's errors are as specified *)
Lemma bform_step t d t' : floats t -> bform t d t' -> finite_xr t' ->
  finite_xr t /\ is_number (fb_rho t') /\ (is_number (fb_rho t) -> fbstep p e U a mag count b t d t').
Proof.
  intros HF HB NX. destruct (bform_floats HF HB) as [HF' HD]. destruct Hpe as [Hp He].
  destruct HF as [X1 X2 X3 X4 X5 X6 X7]. destruct HF' as [X1' X2' X3' X4' X5' X6' X7']. destruct HD as [Y1 Y2 Y3 Y4 Y5 Y6 Y7 Y8 Y9 Y10].
  destruct HB as [F1 F2 F3 F4 F5 F6 F7 F8 F9 F10 F11 F12 F13 F14 F15 F16 F17].
  assert (Fo : is_float p e (SFopp (fb_omega t))) by (apply opp_float; assumption).
  assert (Fo' : is_float p e (SFopp (fb_omega t'))) by (apply opp_float; assumption).
  set (na := SFdiv p e (SFmul p e neg1 (fb_rho t')) (fb_sigma d)) in *.
  assert (Fna : is_float p e na) by (apply div_float; auto; apply mul_float; auto).
  assert (G : forall u, In u U -> (is_number (fb_x t u) /\ is_number (fb_r t u)) /\ is_number (fb_s d u) /\ is_number (fb_t d u) /\ is_number (fb_x1 d u) /\ is_number (fb_p t' u) /\ is_number (fb_v t' u) /\ is_number (fb_p1 d u) /\
     is_number (fb_omega t') /\ is_number (fb_alpha t') /\ is_number na /\ is_number (fb_beta d) /\ is_number (SFopp (fb_omega t))).
  { intros u Hu. destruct (NX u Hu) as [N1 N2].
    rewrite F17 in N2. destruct (fma_value Hp He Fo' (Y7 u Hu) (Y6 u Hu) N2) as (A1 & A2 & A3 & _).
    rewrite F16 in N1. destruct (fma_value Hp He X7' (Y6 u Hu) (Y10 u Hu) N1) as (B1 & B2 & B3 & _).
    pose proof B3 as N3. rewrite F15 in N3. destruct (fma_value Hp He X6' (X3' u Hu) (X1 u Hu) N3) as (C1 & C2 & C3 & _).
    pose proof B2 as N4. rewrite F9 in N4. destruct (fma_value Hp He Fna (X4' u Hu) (X2 u Hu) N4) as (D1 & D2 & D3 & _).
    pose proof C2 as N5. rewrite F6 in N5. destruct (fma_value Hp He Y3 (Y4 u Hu) (X2 u Hu) N5) as (E1 & E2 & E3 & _).
    pose proof E2 as N6. rewrite F5 in N6. destruct (fma_value Hp He Fo (X4 u Hu) (X3 u Hu) N6) as (H1 & H2 & H3 & _). tauto. }
  destruct (G u0 Hu0) as (_ & _ & _ & _ & _ & _ & _ & No' & Na' & Nna & Nb & Nno).
  destruct (opp_value _ Nno) as [No Eo]. destruct (opp_value _ (opp_number _ No')) as [_ Eo'].
  rewrite F4 in Nb. destruct (mul_value Hp He Y1 Y2 Nb) as (Nt1 & Nt2 & Eb). rewrite <- F4 in Nb.
  pose proof Nt1 as Nt1'. rewrite F2 in Nt1'. destruct (div_cases Hp He X5' X5 Nt1') as [Nr' Ct1].
  pose proof Nt2 as Nt2'. rewrite F3 in Nt2'. destruct (div_cases Hp He X6 X7 Nt2') as [Nal Ct2].
  pose proof Na' as Na2. rewrite F10 in Na2. pose proof No' as No2. rewrite F14 in No2.
  pose proof (div_negated Hp He Fn En X5' Y5 Na2 Nna) as Ena. fold na in Ena. rewrite <- F10 in Ena.
  split; [intros u Hu; apply (G u Hu)|]. split; [exact Nr'|]. intros Nr. constructor.
  - apply summed_of_approx; [exact F1|exact Nr'].
  - destruct Ct1 as [(K1 & K2 & K3)|(K1 & _)]; [|contradiction]. split; [exact Nr|]. split; [exact K2|]. rewrite F2. split; [rewrite <- F2; exact Y1|]. split; [exact Nt1'|]. rewrite K3. apply rnd_error; assumption.
  - destruct Ct2 as [(K1 & K2 & K3)|(K1 & _)]; [|contradiction]. split; [exact Nal|]. split; [exact No|]. split; [exact K2|]. rewrite F3. split; [rewrite <- F3; exact Y2|]. split; [exact Nt2'|]. rewrite K3. apply rnd_error; assumption.
  - split; [exact Y3|]. split; [exact Nb|]. rewrite F4, Eb. apply rnd_error; assumption.
  - intros u Hu. rewrite F5. apply rounded_fma; auto; [rewrite <- F5; apply (G u Hu)|rewrite Eo; ring].
  - intros u Hu. rewrite F6. apply rounded_fma; auto; [rewrite <- F6; apply (G u Hu)].
  - apply near_product_number; [exact F7|]. intros u Hu. apply (G u Hu).
  - rewrite F10. apply quotient_of; auto.
  - intros u Hu. rewrite F9. apply rounded_fma; auto; [rewrite <- F9; apply (G u Hu)|rewrite Ena; ring].
  - apply near_product_number; [exact F11|]. intros u Hu. apply (G u Hu).
  - apply summed_of_approx; [exact F12|]. apply (div_cases Hp He Y8 Y9 No2).
  - rewrite F14. apply quotient_of; auto.
  - intros u Hu. rewrite F15. apply rounded_fma; auto; [rewrite <- F15; apply (G u Hu)].
  - intros u Hu. rewrite F16. apply rounded_fma; auto; [rewrite <- F16; apply (NX u Hu)].
  - intros u Hu. rewrite F17. apply rounded_fma; auto; [rewrite <- F17; apply (NX u Hu)|rewrite Eo'; ring].
Qed.
(** the whole run: if solution and residual are finite at the end, everything was finite on the way *)
Lemma bform_run k t d : floats (t 0%nat) -> is_number (fb_rho (t 0%nat)) -> (forall j, (j < k)%nat -> bform (t j) (d j) (t (S j))) -> finite_xr (t k) ->
  floats (t k) /\ is_number (fb_rho (t k)) /\ forall j, (j < k)%nat -> fbstep p e U a mag count b (t j) (d j) (t (S j)).
Proof.
  intros HF HN. induction k as [|k IH]; intros HB NX; [split; [exact HF|split; [exact HN|intros j Hj; lia]]|].
  assert (HB' : forall j, (j < k)%nat -> bform (t j) (d j) (t (S j))) by (intros j Hj; apply HB; lia).
  assert (FA : forall m, (m <= k)%nat -> floats (t m)). { intros m. induction m as [|m IHm]; intros Hm; [exact HF|]. apply (@bform_floats (t m) (d m)); [apply IHm; lia|apply HB; lia]. }
  assert (NXk : finite_xr (t k)).
  { apply (bform_step (FA k (le_n k)) (HB k (Nat.lt_succ_diag_r k)) NX). }
  destruct (IH HB' NXk) as (Fk & Nk & Sk). destruct (bform_step Fk (HB k (Nat.lt_succ_diag_r k)) NX) as (_ & N1 & S1).
  split; [apply (bform_floats Fk (HB k (Nat.lt_succ_diag_r k)))|]. split; [exact N1|]. intros j Hj. destruct (Nat.eq_dec j k) as [-> |Ne]; [apply S1; exact Nk|apply Sk; lia].
Qed.
End Step.

(** ** The residual gap *)
Section Gap.
Variables p e : Z.
Variable P : Type.
Variable U : list P.
Variable a mag : P -> P -> R.
Variable count : P -> nat.
Variable b : P -> spec_float.
Lemma bgap_step t d t' u : fbstep p e U a mag count b t d t' -> In u U -> Rabs (bgap U a b t' u - bgap U a b t u) <= bdrift p e U a mag count t d t' u.
Proof.
  intros HS Hu. unfold bgap, bdrift. destruct (fbs_v HS u Hu) as (_ & _ & BV). destruct (fbs_t HS u Hu) as (_ & _ & BT).
  destruct (fbs_s HS u Hu) as (_ & _ & BS). destruct (fbs_r HS u Hu) as (_ & _ & BR). pose proof (fbs_x1 HS) as BX1. pose proof (fbs_x HS) as BX. clear HS.
  set (al := fvalue (fb_alpha t')) in *. set (om := fvalue (fb_omega t')) in *.
  assert (EX : app_op U a (fun w => fvalue (fb_x t' w)) u - app_op U a (fun w => fvalue (fb_x t w)) u - al * app_op U a (fun w => fvalue (fb_p t' w)) u - om * app_op U a (fun w => fvalue (fb_s d w)) u =
     Rsum (fun w => a u w * ((fvalue (fb_x1 d w) - (fvalue (fb_x t w) + al * fvalue (fb_p t' w))) + (fvalue (fb_x t' w) - (fvalue (fb_x1 d w) + om * fvalue (fb_s d w))))) U).
  { unfold app_op. match goal with |- ?A - ?B - al * ?C - om * ?D = _ => replace (A - B - al * C - om * D) with (A + (-1) * B + (- al) * C + (- om) * D) by ring end. rewrite <- !Rsum_scal, <- !Rsum_plus. apply Rsum_ext. intros w _. ring. }
  assert (EB : Rabs (Rsum (fun w => a u w * ((fvalue (fb_x1 d w) - (fvalue (fb_x t w) + al * fvalue (fb_p t' w))) + (fvalue (fb_x t' w) - (fvalue (fb_x1 d w) + om * fvalue (fb_s d w))))) U) <=
     Rsum (fun w => Rabs (a u w) * (once p e (fvalue (fb_x t w) + al * fvalue (fb_p t' w)) + once p e (fvalue (fb_x1 d w) + om * fvalue (fb_s d w)))) U).
  { apply Rsum_abs_le. intros w Hw. rewrite Rabs_mult. apply Rmult_le_compat_l; [apply Rabs_pos|]. eapply Rle_trans; [apply Rabs_triang|]. apply Rplus_le_compat; [apply (BX1 w Hw)|apply (BX w Hw)]. }
  rewrite <- EX in EB. clear EX. fold (once p e (fvalue (fb_r t u) - al * fvalue (fb_v t' u))) in BS. fold (once p e (fvalue (fb_s d u) - om * fvalue (fb_t d u))) in BR.
  set (AX' := app_op U a (fun w => fvalue (fb_x t' w)) u) in *. set (AX := app_op U a (fun w => fvalue (fb_x t w)) u) in *. set (AP := app_op U a (fun w => fvalue (fb_p t' w)) u) in *. set (AS := app_op U a (fun w => fvalue (fb_s d w)) u) in *.
  set (DX := Rsum _ U) in *.
  replace (fvalue (b u) - AX' - fvalue (fb_r t' u) - (fvalue (b u) - AX - fvalue (fb_r t u))) with
    (- (AX' - AX - al * AP - om * AS) + al * (fvalue (fb_v t' u) - AP) + om * (fvalue (fb_t d u) - AS) + - (fvalue (fb_s d u) - (fvalue (fb_r t u) - al * fvalue (fb_v t' u))) + - (fvalue (fb_r t' u) - (fvalue (fb_s d u) - om * fvalue (fb_t d u)))) by ring.
  eapply Rle_trans; [apply Rabs_triang|]. apply Rplus_le_compat; [|rewrite Rabs_Ropp; exact BR].
  eapply Rle_trans; [apply Rabs_triang|]. apply Rplus_le_compat; [|rewrite Rabs_Ropp; exact BS].
  eapply Rle_trans; [apply Rabs_triang|]. apply Rplus_le_compat; [|rewrite Rabs_mult; apply Rmult_le_compat_l; [apply Rabs_pos|exact BT]].
  eapply Rle_trans; [apply Rabs_triang|]. apply Rplus_le_compat; [rewrite Rabs_Ropp; exact EB|rewrite Rabs_mult; apply Rmult_le_compat_l; [apply Rabs_pos|exact BV]].
Qed.
Lemma bgap_run x0 k t d u : float_bicg p e U a mag count b x0 k t d -> In u U ->
  Rabs (bgap U a b (t k) u + app_op U a (fun w => fvalue (x0 w)) u) <= Rsum (fun j => bdrift p e U a mag count (t j) (d j) (t (S j)) u) (seq 0 k).
Proof.
  intros [S0 H] Hu. pose proof (fbt_x S0) as S1. pose proof (fbt_r S0) as S2. clear S0. induction k as [|k IH].
  - cbn [seq]. rewrite Rsum_nil. unfold bgap. rewrite (S2 u Hu). rewrite (@app_ext _ U a (fun w => fvalue (fb_x (t 0%nat) w)) (fun w => fvalue (x0 w)) u) by (intros w Hw; rewrite (S1 w Hw); reflexivity).
    match goal with |- Rabs ?z <= 0 => replace z with 0 by ring end. rewrite Rabs_R0. lra.
  - rewrite seq_S, Rsum_app, Rsum_cons, Rsum_nil, Rplus_0_r, Nat.add_0_l.
    replace (bgap U a b (t (S k)) u + app_op U a (fun w => fvalue (x0 w)) u) with ((bgap U a b (t k) u + app_op U a (fun w => fvalue (x0 w)) u) + (bgap U a b (t (S k)) u - bgap U a b (t k) u)) by ring.
    eapply Rle_trans; [apply Rabs_triang|]. apply Rplus_le_compat; [apply IH; intros j Hj; apply H; lia|]. eapply bgap_step; [apply H; lia|exact Hu].
Qed.
End Gap.
