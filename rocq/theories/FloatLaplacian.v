(** FloatLaplacian: the conjugate gradient method on the 1-D Laplacian of 100 points in binary64: the first ten steps (C82). *)
From Coq Require Import Reals Lra Lia ZArith.
From Coq Require Import Floats.SpecFloat.
From Flocq Require Import Core.
From Verif Require Import Base Index IndexFacts Outcome Sched Async Arith Launch Vector PartitionSpec Matrix Builder Planner PlannerSetup Solvers ExactSum LinAlg PropsPlanner ExampleSystems PropsLaplacian LaplacianCG LaplacianRounding LaplacianStep LaplacianRow
  Float FloatSum PropsFloat FloatPlanner FloatCGSpec FloatCGBits.
Set Implicit Arguments.
Local Open Scope R_scope.

(** ** Constants of binary64 *)
Notation A := (ieee 53 1024).
Notation u := (unit_roundoff 53).
Notation eta := (tiny 53 1024).
Notation one := (a1 A).
Lemma p53 : (0 < 53)%Z. Proof. reflexivity. Qed.
Lemma e1024 : (53 < 1024)%Z. Proof. reflexivity. Qed.
Notation rnd := (round radix2 (SpecFloat.fexp 53 1024) ZnearestE).
Definition good (x : spec_float) : Prop := is_float 53 1024 x /\ is_number x.
Lemma pow2_neg k : powerRZ 2 (- Z.of_nat k) = / 2 ^ k.
Proof. rewrite powerRZ_neg', <- pow_powerRZ. reflexivity. Qed.
Lemma u_value : 111/1000000000000000000 <= u <= 1111/10000000000000000000.
Proof.
  change u with (powerRZ 2 (- Z.of_nat 53)). rewrite pow2_neg. replace (2 ^ 53) with 9007199254740992 by (cbn [pow]; lra). split.
  - apply Rmult_le_reg_r with 9007199254740992; [lra|]. rewrite Rinv_l by lra. lra.
  - apply Rmult_le_reg_r with 9007199254740992; [lra|]. rewrite Rinv_l by lra. lra.
Qed.
Lemma eta_value : 0 <= eta <= 1/10000000000000000000000000000000000.
Proof.
  pose proof (tiny_pos 53 1024) as H. split; [lra|]. change eta with (powerRZ 2 (- Z.of_nat 113 + - Z.of_nat 962)). rewrite powerRZ_add by lra. rewrite !pow2_neg.
  assert (P : 1 <= 2 ^ 962) by (apply pow_R1_Rle; lra). assert (Q : 0 < / 2 ^ 962 <= 1) by (split; [apply Rinv_0_lt_compat; lra|rewrite <- Rinv_1; apply Rinv_le_contravar; lra]).
  assert (P113 : 10000000000000000000000000000000000 <= 2 ^ 113) by (replace 113%nat with (56 + 57)%nat by reflexivity; rewrite pow_add; replace (2 ^ 56) with 72057594037927936 by (cbn [pow]; lra); replace (2 ^ 57) with 144115188075855872 by (cbn [pow]; lra); lra).
  assert (Q113 : 0 < / 2 ^ 113 <= / 10000000000000000000000000000000000) by (split; [apply Rinv_0_lt_compat; lra|apply Rinv_le_contravar; lra]).
  apply Rle_trans with (/ 10000000000000000000000000000000000 * 1); [apply Rmult_le_compat; lra|lra].
Qed.
Lemma large : 1000000000000000000000000000000 <= largest 1024.
Proof.
  unfold largest. change (1024 - 1)%Z with (Z.of_nat 1023). rewrite <- pow_powerRZ. replace 1023%nat with (100 + 923)%nat by reflexivity. rewrite pow_add. assert (P : 1 <= 2 ^ 923) by (apply pow_R1_Rle; lra).
  assert (P100 : 1000000000000000000000000000000 <= 2 ^ 100) by (replace 100%nat with (50 + 50)%nat by reflexivity; rewrite pow_add; replace (2 ^ 50) with 1125899906842624 by (cbn [pow]; lra); lra).
  replace 1000000000000000000000000000000 with (1000000000000000000000000000000 * 1) by ring. apply Rmult_le_compat; lra.
Qed.
Lemma pow_inverse n : INR n * u <= 1 -> (1 + u) ^ n * (1 - INR n * u) <= 1.
Proof.
  pose proof u_value as Hu. induction n as [|n IH]; intros H; [cbn [pow INR]; lra|]. rewrite S_INR in *. pose proof (pos_INR n) as Pn.
  assert (Hn : INR n * u <= 1) by nra. specialize (IH Hn). cbn [pow].
  assert (P : 0 <= (1 + u) ^ n) by (apply pow_le; lra).
  assert (K : (1 + u) * (1 - (INR n + 1) * u) <= 1 - INR n * u) by nra.
  replace ((1 + u) * (1 + u) ^ n * (1 - (INR n + 1) * u)) with ((1 + u) ^ n * ((1 + u) * (1 - (INR n + 1) * u))) by ring.
  eapply Rle_trans; [apply Rmult_le_compat_l; [exact P|exact K]|exact IH].
Qed.
Definition g0 : R := gamma 53 100.
Definition w0 : R := INR 100 * (1 + u) ^ 100 * eta.
Lemma pow100 : 1 <= (1 + u) ^ 100 <= 1 + 12/1000000000000000.
Proof.
  pose proof u_value as Hu. assert (E : INR 100 = 100) by (rewrite INR_IZR_INZ; reflexivity). pose proof (@pow_inverse 100) as H. rewrite E in H. specialize (H ltac:(lra)).
  assert (P : 1 <= (1 + u) ^ 100) by (apply pow_R1_Rle; lra). split; [exact P|].
  set (y := (1 + u) ^ 100) in *. clearbody y. assert (K : y * (1 - 111100/10000000000000000000) <= 1) by (eapply Rle_trans; [|exact H]; apply Rmult_le_compat_l; lra). lra.
Qed.
Lemma g0_value : 0 <= g0 <= 12/1000000000000000.
Proof. unfold g0, gamma. pose proof pow100. lra. Qed.
Lemma w0_value : 100 * eta <= w0 <= 1/1000000000000000000000000000000.
Proof.
  unfold w0. assert (E : INR 100 = 100) by (rewrite INR_IZR_INZ; reflexivity). rewrite E. pose proof pow100 as P. pose proof eta_value as He. split; nra.
Qed.
Lemma u_range : 0 <= u <= 12/100000000000000000.
Proof. pose proof u_value. lra. Qed.

(** ** Operations on finite floats of moderate size *)
Definition small (t : R) : Prop := Rabs t <= 1000000000000000000000000000000.
Lemma small_large t : small t -> Rabs t <= largest 1024.
Proof. pose proof large. unfold small. lra. Qed.
Lemma good_one : good one /\ fvalue one = 1.
Proof. destruct (one_value p53 e1024) as [H1 H2]. split; [|exact H2]. split; [reflexivity|exact H1]. Qed.
Lemma good_add x y : good x -> good y -> small (fvalue x + fvalue y) -> good (SFadd 53 1024 x y) /\ fvalue (SFadd 53 1024 x y) = rnd (fvalue x + fvalue y).
Proof.
  intros [Fx Nx] [Fy Ny] S. assert (N : is_number (SFadd 53 1024 x y)) by (apply (@add_number _ _ p53 e1024); auto using small_large). split; [split; [apply (@add_float _ _ p53 e1024); assumption|exact N]|].
  apply (@add_value _ _ p53 e1024); assumption.
Qed.
Lemma good_mul x y : good x -> good y -> small (fvalue x * fvalue y) -> good (SFmul 53 1024 x y) /\ fvalue (SFmul 53 1024 x y) = rnd (fvalue x * fvalue y).
Proof.
  intros [Fx Nx] [Fy Ny] S. assert (N : is_number (SFmul 53 1024 x y)) by (apply (@mul_number _ _ p53 e1024); auto using small_large). split; [split; [apply (@mul_float _ _ p53 e1024); assumption|exact N]|].
  apply (@mul_value _ _ p53 e1024); assumption.
Qed.
Lemma good_div x y : good x -> good y -> fvalue y <> 0 -> small (fvalue x / fvalue y) -> good (SFdiv 53 1024 x y) /\ fvalue (SFdiv 53 1024 x y) = rnd (fvalue x / fvalue y).
Proof.
  intros [Fx Nx] [Fy Ny] Hy S. assert (N : is_number (SFdiv 53 1024 x y)) by (apply (@div_number _ _ p53 e1024); auto using small_large). split; [split; [apply (@div_float _ _ p53 e1024); assumption|exact N]|].
  apply (@div_value _ _ p53 e1024); assumption.
Qed.
Lemma good_fma x y z : good x -> good y -> good z -> small (fvalue x * fvalue y + fvalue z) -> good (sf_fma 53 1024 x y z) /\ fvalue (sf_fma 53 1024 x y z) = rnd (fvalue x * fvalue y + fvalue z).
Proof.
  intros [Fx Nx] [Fy Ny] [Fz Nz] S. assert (N : is_number (sf_fma 53 1024 x y z)) by (apply (@fma_number _ _ p53 e1024); auto using small_large). split; [split; [apply (@fma_float _ _ p53 e1024); assumption|exact N]|].
  apply (@fma_value _ _ p53 e1024); assumption.
Qed.
Lemma rnd_err t : Rabs (rnd t - t) <= u * Rabs t + w0.
Proof. pose proof (@rnd_error 53 1024 p53 t). pose proof w0_value. pose proof eta_value. lra. Qed.
Lemma good_zero s : good (S754_zero s) /\ fvalue (S754_zero s) = 0.
Proof. split; [split; [reflexivity|exact I]|reflexivity]. Qed.
Lemma good_neg x : good x -> good (SFopp x) /\ fvalue (SFopp x) = - fvalue x.
Proof.
  intros [Fx Nx]. assert (N : is_number (SFopp x)) by (apply opp_number; exact Nx). split; [split; [apply opp_float; assumption|exact N]|]. apply opp_value. exact N.
Qed.
(** products with -1 and 2 are exact *)
Lemma good_minus x : good x -> small (fvalue x) -> good (SFmul 53 1024 (minus_one A) x) /\ fvalue (SFmul 53 1024 (minus_one A) x) = - fvalue x.
Proof.
  intros Hx S. destruct good_one as [G1 V1]. destruct (good_neg G1) as [G2 V2]. change (SFopp one) with (minus_one A) in *. assert (E : fvalue (minus_one A) * fvalue x = - fvalue x) by (rewrite V2, V1; ring).
  destruct (good_mul G2 Hx) as [G3 V3]; [unfold small; rewrite E, Rabs_Ropp; exact S|]. split; [exact G3|]. rewrite V3, E, round_NE_opp. f_equal. apply rnd_float. exact (proj1 Hx).
Qed.
Lemma rnd_double x : is_float 53 1024 x -> rnd (2 * fvalue x) = 2 * fvalue x.
Proof.
  intros Hx. apply round_generic; [apply valid_rnd_N|]. pose proof (float_format Hx) as F. change (SpecFloat.fexp 53 1024) with (FLT_exp (3 - 1024 - 53) 53) in *.
  apply generic_format_FLT. apply FLT_format_generic in F; [|reflexivity]. destruct F as [f E1 E2 E3]. exists (Float radix2 (Fnum f) (Fexp f + 1)); cbn [Fnum Fexp]; [|exact E2|lia].
  rewrite E1. unfold F2R. cbn [Fnum Fexp]. rewrite bpow_plus. change (bpow radix2 1) with 2. ring.
Qed.
Lemma good_two : good (plus_two A) /\ fvalue (plus_two A) = 2.
Proof.
  destruct good_one as [G1 V1]. destruct (good_add G1 G1) as [G2 V2]; [unfold small; rewrite V1; apply Rabs_le; lra|]. change (SFadd 53 1024 one one) with (plus_two A) in *. split; [exact G2|]. rewrite V2, V1.
  replace (1 + 1) with (2 * fvalue one) by (rewrite V1; ring). rewrite rnd_double by apply G1. rewrite V1. ring.
Qed.
Lemma good_double x : good x -> small (2 * fvalue x) -> good (SFmul 53 1024 (plus_two A) x) /\ fvalue (SFmul 53 1024 (plus_two A) x) = 2 * fvalue x.
Proof.
  intros Hx S. destruct good_two as [G2 V2]. destruct (good_mul G2 Hx) as [G3 V3]; [rewrite V2; exact S|]. split; [exact G3|]. rewrite V3, V2. apply rnd_double. exact (proj1 Hx).
Qed.
Lemma rnd_fixed x : is_float 53 1024 x -> rnd (fvalue x) = fvalue x.
Proof. apply rnd_float. Qed.
Lemma rnd_opp_fixed x : is_float 53 1024 x -> rnd (- fvalue x) = - fvalue x.
Proof. intros H. rewrite round_NE_opp. f_equal. apply rnd_fixed. exact H. Qed.
Lemma rnd_sum_err x y : is_float 53 1024 x -> is_float 53 1024 y -> Rabs (rnd (fvalue x + fvalue y) - (fvalue x + fvalue y)) <= u * Rabs (fvalue x + fvalue y).
Proof. apply (@rnd_plus_error 53 1024 p53). Qed.

(** rounding to nearest, ties to even, as a function of real numbers *)
Definition Float_round (t : R) : R := rnd t.
(** ** One row of the product *)
Notation val x := (fun i : nat => fvalue (x i)).
Lemma row_good n (x : nat -> spec_float) i : (i < n)%nat -> (forall j, (j < n)%nat -> good (x j) /\ Rabs (fvalue (x j)) <= 1000000) ->
  good (row_value A n x i) /\ Rabs (fvalue (row_value A n x i) - lap_row_sum n (val x) i) <= 3 * u * (2 * Rabs (fvalue (x i)) + Rabs (match i with O => 0 | S j => fvalue (x j) end) + Rabs (outside_zero n (val x) (S i))) /\
  Rabs (fvalue (row_value A n x i)) <= 10000000 /\
  (forall y, (0 < depth n i)%nat -> x (Nat.pred i) = y -> x i = y -> x (S i) = y -> fvalue (row_value A n x i) = 0).
Proof.
  intros Hi Hx. pose proof u_value as Hu. destruct (good_zero false) as [Z1 Z2].
  unfold row_value, lap_row_sum, outside_zero. cbn [ieee a0 aadd amul].
  set (l := match i with O => 0 | S j => fvalue (x j) end).
  (* the first sum *)
  assert (S0 : exists s0, s0 = match i with 0%nat => S754_zero false | S j => SFadd 53 1024 (S754_zero false) (SFmul 53 1024 (minus_one A) (x j)) end /\ good s0 /\ fvalue s0 = - l /\ Rabs l <= 1000000).
  { eexists. split; [reflexivity|]. unfold l. destruct i as [|j]; [split; [exact Z1|]; split; [rewrite Z2; ring|rewrite Rabs_R0; lra]|].
    destruct (Hx j ltac:(lia)) as [G B]. destruct (good_minus G) as [G1 V1]; [unfold small; lra|]. destruct (good_add Z1 G1) as [G2 V2]; [unfold small; rewrite V1, Z2, Rplus_0_l, Rabs_Ropp; lra|].
    split; [exact G2|]. split; [|exact B]. rewrite V2, V1, Z2, Rplus_0_l. apply rnd_opp_fixed. exact (proj1 G). }
  destruct S0 as (s0 & E0 & G0 & V0 & B0). rewrite <- E0. clear E0.
  destruct (Hx i Hi) as [Gi Bi]. destruct (good_double Gi) as [Gd Vd]; [unfold small; rewrite Rabs_mult, (Rabs_pos_eq 2) by lra; lra|].
  assert (T1 : Rabs (- l + 2 * fvalue (x i)) <= 3000000) by (clear - B0 Bi; rabs; apply Rabs_le; lra).
  destruct (good_add G0 Gd) as [G1 V1]; [unfold small; rewrite V0, Vd; lra|].
  assert (E1 := rnd_sum_err (proj1 G0) (proj1 Gd)). rewrite <- V1, V0, Vd in E1. set (s1 := SFadd 53 1024 s0 (SFmul 53 1024 (plus_two A) (x i))) in *.
  set (a := Rabs (fvalue (x i))) in *. set (b := Rabs l) in *.
  assert (T2 : Rabs (- l + 2 * fvalue (x i)) <= b + 2 * a) by (unfold a, b; eapply Rle_trans; [apply Rabs_triang|]; rewrite Rabs_Ropp, Rabs_mult, (Rabs_pos_eq 2) by lra; lra).
  assert (Pa : 0 <= a) by apply Rabs_pos. assert (Pb : 0 <= b) by apply Rabs_pos.
  assert (E1' : Rabs (fvalue s1 - (- l + 2 * fvalue (x i))) <= u * (b + 2 * a)) by (eapply Rle_trans; [exact E1|]; apply Rmult_le_compat_l; lra).
  assert (Up : u * (b + 2 * a) <= 1) by (apply Rle_trans with (1111/10000000000000000000 * 3000000); [apply Rmult_le_compat; lra|lra]).
  assert (Un : 0 <= u * (b + 2 * a)) by (apply Rmult_le_pos; lra).
  assert (B1 : Rabs (fvalue s1) <= 3000001) by (clear - E1' T1 Up; rabs; apply Rabs_le; lra).
  destruct (Nat.ltb_spec (S i) n) as [L|L].
  - destruct (Hx (S i) L) as [Gs Bs]. destruct (good_minus Gs) as [Gm Vm]; [unfold small; lra|]. set (cc := Rabs (fvalue (x (S i)))) in *. assert (Pc : 0 <= cc) by apply Rabs_pos.
    assert (T3 : Rabs (fvalue s1 + - fvalue (x (S i))) <= b + 2 * a + u * (b + 2 * a) + cc).
    { replace (fvalue s1 + - fvalue (x (S i))) with ((fvalue s1 - (- l + 2 * fvalue (x i))) + (- l + 2 * fvalue (x i)) - fvalue (x (S i))) by ring. unfold Rminus at 1. eapply Rle_trans; [apply Rabs_triang|]. rewrite Rabs_Ropp. fold cc.
      apply Rplus_le_compat_r. eapply Rle_trans; [apply Rabs_triang|]. lra. }
    destruct (good_add G1 Gm) as [G2 V2]; [unfold small; rewrite Vm; lra|].
    assert (E2 := rnd_sum_err (proj1 G1) (proj1 Gm)). rewrite <- V2, Vm in E2. set (s2 := SFadd 53 1024 s1 _) in *.
    assert (E2' : Rabs (fvalue s2 - (fvalue s1 + - fvalue (x (S i)))) <= u * (b + 2 * a + cc) + u * (u * (b + 2 * a))).
    { eapply Rle_trans; [exact E2|]. replace (u * (b + 2 * a + cc) + u * (u * (b + 2 * a))) with (u * (b + 2 * a + u * (b + 2 * a) + cc)) by ring. apply Rmult_le_compat_l; lra. }
    assert (Uu : u * (u * (b + 2 * a)) <= u * (b + 2 * a)) by (replace (u * (b + 2 * a)) with (1 * (u * (b + 2 * a))) at 2 by ring; apply Rmult_le_compat_r; lra).
    assert (Uc : 0 <= u * cc <= 1) by (split; [apply Rmult_le_pos; lra|]; apply Rle_trans with (1111/10000000000000000000 * 1000000); [apply Rmult_le_compat; lra|lra]).
    split; [exact G2|]. split; [|split].
    + replace (3 * u * (2 * a + b + cc)) with (u * (b + 2 * a) + (u * (b + 2 * a) + u * cc) + u * (b + 2 * a) + 2 * (u * cc)) by ring. replace (u * (b + 2 * a + cc)) with (u * (b + 2 * a) + u * cc) in E2' by ring.
      clear - E1' E2' Uu Uc. rabs. apply Rabs_le. lra.
    + assert (Bs' : Rabs (fvalue (x (S i))) <= 1000000) by exact Bs. clear - E2' B1 Bs' Uu Uc Up Un. replace (u * (b + 2 * a + cc)) with (u * (b + 2 * a) + u * cc) in E2' by ring. rabs. apply Rabs_le. lra.
    + intros y Hd H1 H2 H3. rewrite V2, Vm, V1, V0, Vd. destruct i as [|j]; [unfold depth in Hd; lia|]. cbn [Nat.pred] in H1. unfold l. rewrite H1, H2, H3. replace (- fvalue y + 2 * fvalue y) with (fvalue y) by ring.
      rewrite rnd_fixed by (rewrite <- H2; exact (proj1 Gi)). replace (fvalue y + - fvalue y) with 0 by ring. apply round_0. apply valid_rnd_N.
  - split; [exact G1|]. rewrite Rabs_R0. split; [|split].
    + replace (3 * u * (2 * a + b + 0)) with (3 * (u * (b + 2 * a))) by ring. clear - E1' Un. rabs. apply Rabs_le. lra.
    + lra.
    + intros y Hd. unfold depth in Hd. lia.
Qed.
