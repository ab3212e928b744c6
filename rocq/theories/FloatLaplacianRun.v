(** FloatLaplacianRun: ten CG steps on the 1-D Laplacian of 100 points in binary64 (C82). *)
From Coq Require Import Reals Lra Lia ZArith.
From Coq Require Import Floats.SpecFloat.
From Verif Require Import Base Index IndexFacts Outcome Sched Async Arith Launch Vector PartitionSpec Matrix Builder Planner PlannerSetup Solvers ExactSum LinAlg PropsPlanner ExampleSystems PropsLaplacian LaplacianCG LaplacianRounding LaplacianStep LaplacianRow
  Float FloatSum PropsFloat FloatPlanner FloatCGSpec FloatCGBits FloatLaplacian.
Set Implicit Arguments.
Local Open Scope R_scope.

Section Run.
Variable lg : legion.
Variables v w : pvec.
Variable m : matrix spec_float.
Notation cs := (system v w m).
Notation U := (unknowns lg cs).
Hypothesis Hm : laplacian_matrix_in A 100 (pv_space v) m.
Hypothesis Hg : grid_1d 100 (is_points lg (pv_space v)).
Hypothesis HU : Permutation U (map (fun i => (0%nat, [Z.of_nat i])) (seq 0 100)).
(** the entries of a vector, by point *)
Definition at_pt (f : unknown -> spec_float) (i : nat) : spec_float := f (0%nat, [Z.of_nat i]).
Lemma at_in i : (i < 100)%nat -> In (0%nat, [Z.of_nat i]) U.
Proof. intros Hi. eapply Permutation_in; [apply Permutation_sym; exact HU|]. apply in_map_iff. exists i. split; [reflexivity|]. apply in_seq. lia. Qed.
Lemma in_at u : In u U -> exists i, (i < 100)%nat /\ u = (0%nat, [Z.of_nat i]).
Proof. intros H. eapply Permutation_in in H; [|exact HU]. apply in_map_iff in H. destruct H as [i [<- Hi]]. apply in_seq in Hi. exists i. split; [lia|reflexivity]. Qed.
Lemma dotted_good f g d B : dotted 53 1024 lg cs f g d -> (forall i, (i < 100)%nat -> good (at_pt f i) /\ good (at_pt g i)) ->
  (forall i, (i < 100)%nat -> Rabs (fvalue (at_pt f i) * fvalue (at_pt g i)) <= B) -> B <= 10000000000000000000000 ->
  good d /\ Rabs (fvalue d - Rsum (fun i => fvalue (at_pt f i) * fvalue (at_pt g i)) (seq 0 100)) <= g0 * Rsum (fun i => Rabs (fvalue (at_pt f i) * fvalue (at_pt g i))) (seq 0 100) + w0 /\ Rabs (fvalue d) <= 101 * B + 1.
Proof.
  intros D HG HB Bl. destruct (D True) as (F & E & N).
  { intros u Hu. destruct (in_at _ Hu) as [i [Hi ->]]. destruct (HG i Hi) as [[F1 N1] [F2 N2]]. split; [exact F1|]. split; [exact F2|]. intros _. split; assumption. }
  assert (HL : length (map (fun u => fvalue (f u) * fvalue (g u)) U) = 100%nat) by (rewrite map_length, (Permutation_length HU), map_length, seq_length; reflexivity).
  assert (Es : forall h : R -> R, Rsum h (map (fun u => fvalue (f u) * fvalue (g u)) U) = Rsum (fun i => h (fvalue (at_pt f i) * fvalue (at_pt g i))) (seq 0 100)).
  { intros h. rewrite Rsum_map, (Rsum_perm _ HU), Rsum_map. reflexivity. }
  rewrite HL, !Es in E. unfold fits in N. rewrite HL, Es in N. unfold sum_error in E, N. fold g0 in E, N. fold w0 in E, N.
  set (S1 := Rsum (fun i => Rabs (fvalue (at_pt f i) * fvalue (at_pt g i))) (seq 0 100)) in *.
  assert (B0 : 0 <= B) by (eapply Rle_trans; [apply Rabs_pos|apply (HB 0%nat); lia]).
  assert (S1B : 0 <= S1 <= 100 * B).
  { split; [apply Rsum_nonneg; intros; apply Rabs_pos|]. eapply Rle_trans; [apply (@Rsum_le _ _ (fun _ => B)); intros i Hi; apply in_seq in Hi; apply HB; lia|]. rewrite Rsum_const, INR_IZR_INZ. cbn. lra. }
  pose proof g0_value as Hg0. pose proof w0_value as Hw0. pose proof eta_value. pose proof large as HLg.
  assert (GS : 0 <= g0 * S1 <= B) by (split; [apply Rmult_le_pos; lra|]; apply Rle_trans with (12/1000000000000000 * (100 * B)); [apply Rmult_le_compat; lra|lra]).
  assert (Nd : is_number d) by (apply N; [exact I|]; lra). specialize (E Nd). split; [split; assumption|]. split; [exact E|].
  assert (Bs : Rabs (Rsum (fun i => fvalue (at_pt f i) * fvalue (at_pt g i)) (seq 0 100)) <= S1) by (apply Rsum_abs_bound; intros; lra).
  clear - E Bs GS S1B Hw0. rabs. apply Rabs_le. lra.
Qed.

Record binv (k : nat) (t : fiterate unknown) : Prop := mk_binv {
  bv_good : forall i, (i < 100)%nat -> good (at_pt (f_p t) i) /\ good (at_pt (f_r t) i);
  bv_rho : good (f_rho t);
  bv_state : exists cf, (forall i, (i < 100)%nat -> (k <= depth 100 i)%nat -> at_pt (f_p t) i = cf /\ at_pt (f_r t) i = one) /\
     lstate 100 k (fvalue cf) (fvalue (f_rho t)) (t_d k) (t_kap k) (t_rr k) (t_tau k) (val (at_pt (f_p t))) (val (at_pt (f_r t))) }.

Lemma binv_start x0 t : bit_start 53 1024 lg cs x0 (fun _ => one) t -> binv 0 t /\ Rabs (fvalue (f_rho t) - 100) <= 2/1000000000000.
Proof.
  intros [_ Hr Hp Hd]. destruct good_one as [G1 V1].
  assert (Er : forall i, (i < 100)%nat -> at_pt (f_r t) i = one) by (intros i Hi; apply Hr; apply at_in; exact Hi).
  assert (Ep : forall i, (i < 100)%nat -> at_pt (f_p t) i = one) by (intros i Hi; apply Hp; apply at_in; exact Hi).
  destruct (dotted_good (B := 1) Hd) as (Gd & Ed & _).
  - intros i Hi. rewrite (Er i Hi). auto.
  - intros i Hi. rewrite (Er i Hi), V1, Rmult_1_l, Rabs_R1. lra.
  - lra.
  - rewrite (Rsum_ext _ (fun _ => 1)) in Ed by (intros i Hi; apply in_seq in Hi; rewrite Er, V1 by lia; ring).
    rewrite (Rsum_ext (fun i => Rabs _) (fun _ => 1)) in Ed by (intros i Hi; apply in_seq in Hi; rewrite Er, V1 by lia; rewrite Rmult_1_l; apply Rabs_R1).
    rewrite Rsum_const, INR_IZR_INZ in Ed. cbn [Z.of_nat Pos.of_succ_nat Pos.succ] in Ed. pose proof g0_value. pose proof w0_value.
    assert (Ed' : Rabs (fvalue (f_rho t) - 100) <= 100 * g0 + w0) by (eapply Rle_trans; [|eapply Rle_trans; [exact Ed|]]; [right; f_equal; ring|lra]).
    split; [|clear - Ed' H H0; lra]. constructor.
    + intros i Hi. rewrite Er, Ep by exact Hi. auto.
    + exact Gd.
    + exists one. split; [intros i Hi _; rewrite Er, Ep by exact Hi; auto|]. rewrite V1. constructor; cbn [INR].
      * lra.
      * unfold t_tau. clear - Ed' H H0. rabs. apply Rabs_le. lra.
      * intros i Hi _. rewrite Er, Ep by exact Hi. auto.
      * intros i Hi D. discriminate.
      * intros i Hi D. lia.
      * intros i Hi D. lia.
Qed.
Lemma zero_of_value x : is_number x -> fvalue x = 0 -> exists s, x = S754_zero s.
Proof.
  destruct x as [s|s| |s q e]; cbn [is_number fvalue]; intros H E; try contradiction; [exists s; reflexivity|]. exfalso. assert (P : 0 < powerRZ 2 e) by (apply powerRZ_lt; lra). assert (Q : 0 < IZR (Zpos q)) by (apply IZR_lt; reflexivity).
  destruct s; nra.
Qed.
Lemma fma_zero_one x s : is_number x -> sf_fma 53 1024 x (S754_zero s) one = one.
Proof. destruct x as [sx|sx| |sx q e]; cbn [is_number]; intros H; try contradiction; destruct sx, s; reflexivity. Qed.
Lemma binv_step k t t' : (k <= 9)%nat -> binv k t -> bit_step 53 1024 lg cs t t' ->
  binv (S k) t' /\ Rabs (fvalue (f_rho t') - 2 * ((50 - INR k - 1) * (50 - INR k - 1) + (50 - INR k - 1))) <= 3/10000.
Proof.
  intros Hk [HG Grho [cf [Hin HS]]] (Q & sigma & HQ & Dsig & _ & HR' & Drho & HP').
  set (P := at_pt (f_p t)) in *. set (Rr := at_pt (f_r t)) in *. set (q := at_pt Q). set (R' := at_pt (f_r t')) in *. set (P' := at_pt (f_p t')) in *.
  destruct (table_caps Hk) as (Cd & Ck & Cr & Ct). pose proof u_range as Hu. pose proof w0_value as Hw0. pose proof eta_value as Het. pose proof g0_value as Hg0. destruct good_one as [Gone Vone].
  assert (Hw' : 0 <= w0 <= 1/1000000000000000000000000000000) by lra.
  assert (He0 : 0 <= 3 * u <= 1/1000000000000000) by (pose proof u_value; lra).
  set (c := fvalue cf) in *. set (rho := fvalue (f_rho t)) in *.
  pose proof HS as [Hc Htau Hcin Hedge Hout Hjunk].
  assert (Pb : forall i, (i < 100)%nat -> Rabs (fvalue (P i)) <= 60).
  { intros i Hi. destruct (Nat.lt_ge_cases (depth 100 i) k) as [L|L].
    - eapply Rle_trans; [apply (Hjunk i Hi L)|]. nra.
    - destruct (Hcin i Hi L) as [E _]. cbn beta in E. rewrite E, Rabs_pos_eq by lra. lra. }
  assert (Rb : forall i, (i < 100)%nat -> Rabs (fvalue (Rr i)) <= 51).
  { assert (Kr : 0 <= INR k <= 9) by (split; [apply pos_INR|apply le_INR in Hk; cbn in Hk; lra]). intros i Hi. destruct (Nat.lt_ge_cases (depth 100 i) k) as [L|L].
    - destruct (Nat.eq_dec (S (depth 100 i)) k) as [E|E].
      + destruct (Hedge i Hi E) as [_ X]. cbn beta in X. clear - X Cr Kr. rabs. apply Rabs_le. lra.
      + assert (X := Hout i Hi ltac:(lia)). cbn beta in X. lra.
    - destruct (Hcin i Hi L) as [_ E]. cbn beta in E. rewrite E, Rabs_R1. lra. }
  assert (Gx : forall j, (j < 100)%nat -> good (P j) /\ Rabs (fvalue (P j)) <= 1000000) by (intros j Hj; split; [apply (HG j Hj)|specialize (Pb j Hj); lra]).
  (* the product *)
  assert (Eq : forall i, (i < 100)%nat -> q i = row_value A 100 P i).
  { intros i Hi. unfold q, at_pt. rewrite (HQ _ (at_in Hi)). cbn [fst snd]. rewrite (@product_lap _ A 100 (pv_space v) lg m ltac:(lia) Hm Hg v w _ i eq_refl Hi). reflexivity. }
  assert (Gq : forall i, (i < 100)%nat -> good (q i)) by (intros i Hi; rewrite (Eq i Hi); apply (@row_good 100 P i Hi Gx)).
  assert (Qb : forall i, (i < 100)%nat -> Rabs (fvalue (q i)) <= 10000000) by (intros i Hi; rewrite (Eq i Hi); apply (@row_good 100 P i Hi Gx)).
  assert (Qe : forall i, (i < 100)%nat -> Rabs (fvalue (q i) - lap_row_sum 100 (val P) i) <= 3 * u * (2 * Rabs (fvalue (P i)) + Rabs (match i with O => 0 | S j => fvalue (P j) end) + Rabs (outside_zero 100 (val P) (S i))) + w0).
  { intros i Hi. rewrite (Eq i Hi). eapply Rle_trans; [apply (@row_good 100 P i Hi Gx)|]. lra. }
  assert (Q0 : forall i, (i < 100)%nat -> (k < depth 100 i)%nat -> fvalue (q i) = 0).
  { intros i Hi D. rewrite (Eq i Hi). destruct (@row_good 100 P i Hi Gx) as (_ & _ & _ & X). apply (X cf); [lia|..]; apply Hin; unfold depth in *; lia. }
  (* the first dot product *)
  destruct (dotted_good (B := 600000000) Dsig) as (Gsig & Esig & _).
  { intros i Hi. split; [apply (HG i Hi)|apply (Gq i Hi)]. }
  { intros i Hi. rewrite Rabs_mult. change (Rabs (fvalue (P i)) * Rabs (fvalue (q i)) <= 600000000). apply Rle_trans with (60 * 10000000); [|lra]. apply Rmult_le_compat; try apply Rabs_pos; auto. }
  { lra. }
  change (at_pt (f_p t)) with P in Esig. change (at_pt Q) with q in Esig.
  pose proof (@sigma_close w0 g0 (3 * u) Hw' Hg0 He0 100 k eq_refl Hk c rho (t_d k) (t_kap k) (t_rr k) (t_tau k) (val P) (val Rr) (val q) HS Cd Ck (fvalue sigma) Qe Q0 Esig) as Sc.
  pose proof (@serr_small w0 g0 (3 * u) Hw' Hg0 He0 (t_d k) (t_kap k) Cd Ck) as Ss.
  assert (Sl : 1 <= fvalue sigma) by (assert (1 <= c * c) by nra; apply Rabs_le_inv in Sc; nra).
  assert (Rl : 80 <= rho <= 6121).
  { assert (Kr : 0 <= INR k <= 9) by (split; [apply pos_INR|apply le_INR in Hk; cbn in Hk; lra]). assert (E : rho = 2 * c * (rho / (2 * c))) by (field; lra). clear - E Htau Kr Ct Hc. set (z := rho / (2 * c)) in *. apply Rabs_le_inv in Htau. nra. }
  assert (Ab : 0 <= rho / fvalue sigma <= 6121).
  { split; [apply Rmult_le_pos; [lra|]; left; apply Rinv_0_lt_compat; lra|]. apply Rmult_le_reg_r with (fvalue sigma); [lra|]. unfold Rdiv. rewrite Rmult_assoc, Rinv_l by lra. nra. }
  assert (Ds : fvalue sigma <> 0) by lra. assert (Dr : rho <> 0) by lra.
  destruct (@good_div (f_rho t) sigma Grho Gsig Ds) as [Ga Va]; [unfold small; fold rho; rewrite Rabs_pos_eq by lra; lra|]. fold rho in Va.
  destruct (good_minus Grho) as [Gn Vn]; [unfold small; fold rho; rewrite Rabs_pos_eq by lra; lra|]. fold rho in Vn. change (minus_one A) with (neg_one 53 1024) in Gn, Vn.
  assert (Ena : - rho / fvalue sigma = - (rho / fvalue sigma)) by (field; lra).
  destruct (@good_div _ sigma Gn Gsig Ds) as [Gna _]; [unfold small; rewrite Vn, Ena, Rabs_Ropp, Rabs_pos_eq by lra; lra|].
  assert (Vna : fvalue (SFdiv 53 1024 (SFmul 53 1024 (neg_one 53 1024) (f_rho t)) sigma) = - fvalue (SFdiv 53 1024 (f_rho t) sigma)).
  { destruct (good_neg Gone) as [G2 V2]. assert (V3 : fvalue (neg_one 53 1024) = -1) by (change (fvalue (SFopp one) = -1); rewrite V2, Vone; ring).
    exact (@div_negated 53 1024 p53 e1024 (neg_one 53 1024) (f_rho t) sigma (proj1 G2) V3 (proj1 Grho) (proj1 Gsig) (proj2 Ga) (proj2 Gna)). }
  set (a := SFdiv 53 1024 (f_rho t) sigma) in *. set (na := SFdiv 53 1024 (SFmul 53 1024 (neg_one 53 1024) (f_rho t)) sigma) in *.
  pose proof (rnd_err (rho / fvalue sigma)) as Ea. rewrite <- Va in Ea.
  assert (Ab' : Rabs (fvalue a) <= 6122).
  { rewrite (Rabs_pos_eq (rho / fvalue sigma)) in Ea by lra. assert (u * (rho / fvalue sigma) <= 1/2) by (apply Rle_trans with (12/100000000000000000 * 6121); [apply Rmult_le_compat; lra|lra]). clear - Ea H Ab Hw0. rabs. apply Rabs_le. lra. }
  (* the residual *)
  assert (ER : forall i, (i < 100)%nat -> R' i = sf_fma 53 1024 na (q i) (Rr i)) by (intros i Hi; apply (HR' _ (at_in Hi))).
  assert (Sr : forall i, (i < 100)%nat -> Rabs (fvalue na * fvalue (q i) + fvalue (Rr i)) <= 61220000051).
  { intros i Hi. eapply Rle_trans; [apply Rabs_triang|]. rewrite Rabs_mult, Vna, Rabs_Ropp. specialize (Qb i Hi). specialize (Rb i Hi). pose proof (Rabs_pos (fvalue a)). pose proof (Rabs_pos (fvalue (q i))).
    assert (Rabs (fvalue a) * Rabs (fvalue (q i)) <= 6122 * 10000000) by (apply Rmult_le_compat; lra). lra. }
  assert (Gr' : forall i, (i < 100)%nat -> good (R' i) /\ fvalue (R' i) = Float_round (fvalue (Rr i) - fvalue a * fvalue (q i))).
  { intros i Hi. rewrite (ER i Hi). destruct (@good_fma na (q i) (Rr i) Gna (Gq i Hi) (proj2 (HG i Hi))) as [X1 X2]; [unfold small; specialize (Sr i Hi); lra|]. split; [exact X1|]. rewrite X2. unfold Float_round. f_equal. rewrite Vna. ring. }
  assert (Er' : forall i, (i < 100)%nat -> Rabs (fvalue (R' i) - (fvalue (Rr i) - fvalue a * fvalue (q i))) <= u * Rabs (fvalue (Rr i) - fvalue a * fvalue (q i)) + w0).
  { intros i Hi. rewrite (proj2 (Gr' i Hi)). apply rnd_err. }
  assert (R1 : forall i, (i < 100)%nat -> (k < depth 100 i)%nat -> R' i = one).
  { intros i Hi D. rewrite (ER i Hi). destruct (Hin i Hi ltac:(lia)) as [_ E]. fold Rr in E. rewrite E. destruct (@zero_of_value (q i) (proj2 (Gq i Hi)) (Q0 i Hi D)) as [s ->]. apply fma_zero_one. exact (proj2 Gna). }
  assert (R1v : forall i, (i < 100)%nat -> (k < depth 100 i)%nat -> fvalue (R' i) = 1) by (intros i Hi D; rewrite (R1 i Hi D); exact Vone).
  assert (Rb' : forall i, (i < 100)%nat -> Rabs (fvalue (R' i)) <= 70000000000).
  { intros i Hi. specialize (Er' i Hi). specialize (Sr i Hi). replace (fvalue na * fvalue (q i) + fvalue (Rr i)) with (fvalue (Rr i) - fvalue a * fvalue (q i)) in Sr by (rewrite Vna; ring). set (z := fvalue (Rr i) - fvalue a * fvalue (q i)) in *.
    assert (u * Rabs z <= 1000) by (apply Rle_trans with (12/100000000000000000 * 61220000051); [apply Rmult_le_compat; try apply Rabs_pos; lra|lra]). clear - Er' Sr H Hw0. rabs. apply Rabs_le. lra. }
  (* the second dot product *)
  destruct (dotted_good (B := 5000000000000000000000) Drho) as (Grho' & Erho & Brho).
  { intros i Hi. split; apply (Gr' i Hi). }
  { intros i Hi. rewrite Rabs_mult. change (Rabs (fvalue (R' i)) * Rabs (fvalue (R' i)) <= 5000000000000000000000). specialize (Rb' i Hi). pose proof (Rabs_pos (fvalue (R' i))). apply Rle_trans with (70000000000 * 70000000000); [apply Rmult_le_compat; lra|lra]. }
  { lra. }
  change (at_pt (f_r t')) with R' in Erho. set (rho1 := fvalue (f_rho t')) in *.
  rewrite (Rsum_ext (fun i => Rabs _) (fun i => fvalue (R' i) * fvalue (R' i))) in Erho by (intros i _; apply Rabs_pos_eq; apply Rle_0_sqr).
  assert (Bb : Rabs (rho1 / rho) <= 1000000000000000000000000).
  { unfold Rdiv. rewrite Rabs_mult, (Rabs_pos_eq (/ rho)) by (left; apply Rinv_0_lt_compat; lra). assert (/ rho <= 1) by (rewrite <- Rinv_1; apply Rinv_le_contravar; lra). assert (0 < / rho) by (apply Rinv_0_lt_compat; lra).
    apply Rle_trans with ((101 * (5000000000000000000000) + 1) * 1); [apply Rmult_le_compat; try apply Rabs_pos; lra|lra]. }
  destruct (@good_div (f_rho t') (f_rho t) Grho' Grho Dr) as [Gb Vb]; [unfold small; fold rho rho1; lra|]. fold rho rho1 in Vb. set (b := SFdiv 53 1024 (f_rho t') (f_rho t)) in *.
  pose proof (rnd_err (rho1 / rho)) as Eb. rewrite <- Vb in Eb.
  assert (Bb' : Rabs (fvalue b) <= 2000000000000000000000000).
  { assert (u * Rabs (rho1 / rho) <= 1000000000) by (apply Rle_trans with (12/100000000000000000 * 1000000000000000000000000); [apply Rmult_le_compat; try apply Rabs_pos; lra|lra]). clear - Eb H Bb Hw0. rabs. apply Rabs_le. lra. }
  (* the direction *)
  assert (EP : forall i, (i < 100)%nat -> P' i = sf_fma 53 1024 b (P i) (R' i)) by (intros i Hi; apply (HP' _ (at_in Hi))).
  assert (Gp' : forall i, (i < 100)%nat -> good (P' i) /\ fvalue (P' i) = Float_round (fvalue (R' i) + fvalue b * fvalue (P i))).
  { intros i Hi. rewrite (EP i Hi). destruct (@good_fma b (P i) (R' i) Gb (proj1 (HG i Hi)) (proj1 (Gr' i Hi))) as [X1 X2].
    - unfold small. eapply Rle_trans; [apply Rabs_triang|]. rewrite Rabs_mult. specialize (Pb i Hi). specialize (Rb' i Hi). assert (Rabs (fvalue b) * Rabs (fvalue (P i)) <= 2000000000000000000000000 * 60) by (apply Rmult_le_compat; try apply Rabs_pos; lra). lra.
    - split; [exact X1|]. rewrite X2. unfold Float_round. f_equal. ring. }
  assert (Ep' : forall i, (i < 100)%nat -> Rabs (fvalue (P' i) - (fvalue (R' i) + fvalue b * fvalue (P i))) <= u * Rabs (fvalue (R' i) + fvalue b * fvalue (P i)) + w0).
  { intros i Hi. rewrite (proj2 (Gp' i Hi)). apply rnd_err. }
  set (cf1 := sf_fma 53 1024 b cf one).
  assert (P1 : forall i, (i < 100)%nat -> (k < depth 100 i)%nat -> P' i = cf1).
  { intros i Hi D. rewrite (EP i Hi), (R1 i Hi D). destruct (Hin i Hi ltac:(lia)) as [E _]. fold P in E. rewrite E. reflexivity. }
  assert (P1v : forall i, (i < 100)%nat -> (k < depth 100 i)%nat -> fvalue (P' i) = fvalue cf1) by (intros i Hi D; rewrite (P1 i Hi D); reflexivity).
  (* the real analysis *)
  pose proof (table_rr1 Hu Hw' Hg0 He0 Hk) as T1. pose proof (table_rr_cap Hk) as T2. destruct (table_next Hu Hw' Hg0 He0 Hk) as (T3 & T4 & T5 & T6).
  assert (Hrr1 : rr1 u w0 g0 (3 * u) (t_d k) (t_kap k) (t_rr k) (t_tau k) <= 1/1000) by (unfold n_rr1 in T1; lra).
  pose proof (@lstate_step u w0 g0 (3 * u) Hu Hw' Hg0 He0 100 k eq_refl Hk c rho (t_d k) (t_kap k) (t_rr k) (t_tau k) (val P) (val Rr) (val q) (val R') (val P') HS Cd Ck Cr Ct
    (fvalue sigma) (fvalue a) rho1 (fvalue b) (fvalue cf1) Qe Q0 Esig Ea Er' R1v Erho Eb Ep' P1v Hrr1) as [L1 L2].
  split; [|eapply Rle_trans; [exact L2|exact T6]].
  constructor.
  - intros i Hi. split; [apply (Gp' i Hi)|apply (Gr' i Hi)].
  - exact Grho'.
  - exists cf1. split; [intros i Hi D; split; [apply P1|apply R1]; solve [exact Hi|lia]|]. eapply lstate_weaken; [exact T3|exact T4|unfold n_rr1 in T1; apply T1|exact T5|exact L1].
Qed.
End Run.
