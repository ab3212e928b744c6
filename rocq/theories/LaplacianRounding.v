(** LaplacianRounding: one CG step on the 1-D Laplacian with right-hand side 1, with rounding errors (real analysis for C82). *)
From Coq Require Import Reals Lra Lia.
From Verif Require Import Base Launch ExactSum LinAlg PropsLaplacian LaplacianCG.
Set Implicit Arguments.
Local Open Scope R_scope.

Lemma Rabs_le_inv x e : Rabs x <= e -> - e <= x <= e.
Proof. unfold Rabs. destruct (Rcase_abs x); lra. Qed.
Ltac rabs := repeat match goal with H : Rabs _ <= _ |- _ => apply Rabs_le_inv in H end.
Lemma abs_mult_le x y a b : Rabs x <= a -> Rabs y <= b -> Rabs (x * y) <= a * b.
Proof. intros H1 H2. rewrite Rabs_mult. apply Rmult_le_compat; try apply Rabs_pos; assumption. Qed.
Lemma mult_between x y a b : 0 <= x <= a -> 0 <= y <= b -> 0 <= x * y <= a * b.
Proof. intros [H1 H2] [H3 H4]. split; [apply Rmult_le_pos; assumption|apply Rmult_le_compat; assumption]. Qed.

(** ** The scalars of a step.  [v]: rounding, [w]: underflow *)
Section Scalars.
Variables v w : R.
Hypothesis Hv : 0 <= v <= 12/100000000000000000.
Hypothesis Hw : 0 <= w <= 1/1000000000000000000000000000000.
Variables T c t rho tau d : R.
Hypothesis HT : 41 <= T <= 50.
Hypothesis Hc : 1 <= c <= 60.
Hypothesis Hrho : rho = 2 * c * t.
Hypothesis Htau : 0 <= tau <= 1/1000.
Hypothesis Ht : Rabs (t - T) <= tau.
Hypothesis Hd : 0 <= d <= 1/1000.

Lemma t_range : 40999/1000 <= t <= 50001/1000.
Proof. rabs. lra. Qed.

Variables s sigma a : R.
Hypothesis Hs : 0 <= s <= 1/1000.
Hypothesis Hsigma : Rabs (sigma - 2 * (c * c)) <= 2 * (c * c) * s.
Hypothesis Ha : Rabs (a - rho / sigma) <= v * Rabs (rho / sigma) + w.

Lemma sigma_pos : 0 < sigma.
Proof. rabs. assert (1 <= c * c) by nra. nra. Qed.
(** the step length, multiplied by the size of the direction *)
Lemma alpha_c_close : Rabs (a * c - t) <= t * (1002/1000 * s + 2 * v + 2 * w).
Proof.
  pose proof t_range as Rt. pose proof sigma_pos as Sp.
  set (z := rho / sigma * c). 
  assert (Ez : z - t = t * ((2 * (c * c) - sigma) / sigma)) by (unfold z; rewrite Hrho; field; lra).
  assert (Q : Rabs ((2 * (c * c) - sigma) / sigma) <= 1002/1000 * s).
  { unfold Rdiv. rewrite Rabs_mult. rewrite (Rabs_pos_eq (/ sigma)) by (left; apply Rinv_0_lt_compat; exact Sp).
    apply Rmult_le_reg_r with sigma; [exact Sp|]. rewrite Rmult_assoc, Rinv_l, Rmult_1_r by lra. rewrite Rabs_minus_sym.
    eapply Rle_trans; [exact Hsigma|]. rabs. assert (1 <= c * c) by nra. nra. }
  assert (Q1 : Rabs (z - t) <= t * (1002/1000 * s)) by (rewrite Ez, Rabs_mult, (Rabs_pos_eq t) by lra; apply Rmult_le_compat_l; [lra|exact Q]).
  assert (Zp : 0 < rho / sigma) by (apply Rdiv_lt_0_compat; [rewrite Hrho; nra|exact Sp]).
  rewrite (Rabs_pos_eq (rho / sigma)) in Ha by lra.
  replace (a * c - t) with ((a - rho / sigma) * c + (z - t)) by (unfold z; ring).
  eapply Rle_trans; [apply Rabs_triang|].
  assert (Q2 : Rabs ((a - rho / sigma) * c) <= (v * (rho / sigma) + w) * c) by (rewrite Rabs_mult, (Rabs_pos_eq c) by lra; apply Rmult_le_compat_r; [lra|exact Ha]).
  assert (Zb : z <= 101/100 * t) by (rabs; nra).
  assert (Q3 : (v * (rho / sigma) + w) * c <= v * (101/100 * t) + w * 60) by (replace ((v * (rho / sigma) + w) * c) with (v * z + w * c) by (unfold z; ring); nra).
  nra.
Qed.

(** an entry of the residual next to the constant part *)
Lemma boundary_residual q y eps eta : 0 <= eps <= 1/1000 -> Rabs (q - c) <= c * (d + eps) -> Rabs (y - (1 - a * q)) <= v * Rabs (1 - a * q) + w ->
  51 * (1002/1000 * s + 4 * v + 101/100 * (d + eps)) + 10 * w + 102 * w <= eta -> Rabs (y - (1 - t)) <= eta.
Proof.
  intros He Hq Hy Heta. pose proof t_range as Rt. pose proof alpha_c_close as A. pose proof Hv. pose proof Hw.
  assert (A1 : Rabs (a * c - t) <= t * (1/100)) by (eapply Rle_trans; [exact A|]; apply Rmult_le_compat_l; lra).
  assert (Ac : 0 <= a * c <= 101/100 * t) by (apply Rabs_le_inv in A1; lra).
  assert (Q : Rabs (a * q - a * c) <= a * c * (d + eps)).
  { replace (a * q - a * c) with (a * c * ((q - c) / c)) by (field; lra). rewrite Rabs_mult, (Rabs_pos_eq (a * c)) by lra. apply Rmult_le_compat_l; [lra|].
    unfold Rdiv. rewrite Rabs_mult, (Rabs_pos_eq (/ c)) by (left; apply Rinv_0_lt_compat; lra). apply Rmult_le_reg_r with c; [lra|]. rewrite Rmult_assoc, Rinv_l, Rmult_1_r by lra. lra. }
  assert (Q1 : a * c * (d + eps) <= t * (101/100 * (d + eps))) by (replace (t * (101/100 * (d + eps))) with ((101/100 * t) * (d + eps)) by ring; apply Rmult_le_compat_r; lra).
  assert (Q2 : Rabs (a * q - t) <= t * (1002/1000 * s + 2 * v + 2 * w + 101/100 * (d + eps))) by (rabs; apply Rabs_le; split; nra).
  assert (Q3 : Rabs (1 - a * q) <= 11/10 * t).
  { assert (Rabs (a * q - t) <= t * (1/50)) by (eapply Rle_trans; [exact Q2|]; apply Rmult_le_compat_l; lra). rabs. apply Rabs_le. lra. }
  replace (y - (1 - t)) with ((y - (1 - a * q)) + (t - a * q)) by ring. eapply Rle_trans; [apply Rabs_triang|]. rewrite (Rabs_minus_sym t).
  assert (Q4 : v * Rabs (1 - a * q) <= v * (11/10 * t)) by (apply Rmult_le_compat_l; lra).
  assert (Q5 : t * (1002/1000 * s + 2 * v + 2 * w + 101/100 * (d + eps)) + v * (11/10 * t) <= 51 * (1002/1000 * s + 4 * v + 101/100 * (d + eps)) + 102 * w) 
    by (replace (t * (1002/1000 * s + 2 * v + 2 * w + 101/100 * (d + eps)) + v * (11/10 * t)) with (t * (1002/1000 * s + 2 * v + 2 * w + 101/100 * (d + eps) + 11/10 * v)) by ring;
        apply Rle_trans with (51 * (1002/1000 * s + 2 * v + 2 * w + 101/100 * (d + eps) + 11/10 * v)); [apply Rmult_le_compat_r|]; lra).
  lra.
Qed.

Lemma alpha_all : Rabs (a * c - t) <= t * (1002/1000 * s + 2 * v + 2 * w) /\
  (forall q y eps eta, 0 <= eps <= 1/1000 -> Rabs (q - c) <= c * (d + eps) -> Rabs (y - (1 - a * q)) <= v * Rabs (1 - a * q) + w ->
    51 * (1002/1000 * s + 4 * v + 101/100 * (d + eps)) + 10 * w + 102 * w <= eta -> Rabs (y - (1 - t)) <= eta).
Proof using All. split; [exact alpha_c_close|]. intros. eapply boundary_residual; eassumption. Qed.

(** the next direction and the next residual norm *)
Variables yl yr eta chi rho' b c' : R.
Hypothesis Heta : 0 <= eta <= 1/1000.
Hypothesis Hyl : Rabs (yl - (1 - t)) <= eta.
Hypothesis Hyr : Rabs (yr - (1 - t)) <= eta.
Hypothesis Hchi : 0 <= chi <= 1/1000.
Hypothesis Hrho' : Rabs (rho' - (yl * yl + yr * yr + 2 * (T - 1))) <= chi.
Hypothesis Hb : Rabs (b - rho' / rho) <= v * Rabs (rho' / rho) + w.
Hypothesis Hc' : Rabs (c' - (1 + b * c)) <= v * Rabs (1 + b * c) + w.

Definition Wn : R := (yl * yl + yr * yr) / 2 + (T - 1).
Lemma W_close : Rabs (Wn - ((1 - t) * (1 - t) + (T - 1))) <= 101 * eta.
Proof.
  pose proof t_range. unfold Wn.
  replace ((yl * yl + yr * yr) / 2 + (T - 1) - ((1 - t) * (1 - t) + (T - 1))) with ((yl - (1 - t)) * (yl + (1 - t)) / 2 + (yr - (1 - t)) * (yr + (1 - t)) / 2) by field.
  assert (forall y, Rabs (y - (1 - t)) <= eta -> Rabs ((y - (1 - t)) * (y + (1 - t))) <= eta * 101).
  { intros y Hy. apply abs_mult_le; [exact Hy|]. rabs. apply Rabs_le. lra. }
  pose proof (H0 yl Hyl) as A. pose proof (H0 yr Hyr) as B. rabs. apply Rabs_le. lra.
Qed.
Lemma W_range : 1560 <= Wn <= 2451.
Proof.
  pose proof t_range as R. pose proof W_close as A. assert (B : 39999/1000 * (39999/1000) <= (1 - t) * (1 - t) <= 49001/1000 * (49001/1000)) by nra. rabs. lra.
Qed.
Lemma beta_c_close : Rabs (b * c - Wn / t) <= chi / 81 + 64 * v + 60 * w /\ 37 <= b * c <= 61.
Proof.
  pose proof t_range as R. pose proof W_range as W. pose proof Hv. pose proof Hw.
  assert (Rp : 0 < rho) by (rewrite Hrho; nra).
  assert (E : rho' / rho * c = rho' / (2 * t)) by (rewrite Hrho; field; lra).
  assert (E2 : Rabs (rho' / (2 * t) - Wn / t) <= chi / 81).
  { replace (rho' / (2 * t) - Wn / t) with ((rho' - (yl * yl + yr * yr + 2 * (T - 1))) / (2 * t)) by (unfold Wn; field; lra).
    unfold Rdiv at 1. rewrite Rabs_mult, (Rabs_pos_eq (/ (2 * t))) by (left; apply Rinv_0_lt_compat; lra).
    apply Rmult_le_compat; [apply Rabs_pos|left; apply Rinv_0_lt_compat; lra|exact Hrho'|]. apply Rinv_le_contravar; lra. }
  assert (Wt : 38 <= Wn / t <= 60).
  { split; apply Rmult_le_reg_r with t; try lra; unfold Rdiv; rewrite Rmult_assoc, Rinv_l, Rmult_1_r by lra.
    - assert (A := W_close). assert (B : (1 - t) * (1 - t) >= 39999/1000 * (t - 1)) by (clear - R; nra). clear - A B R HT Heta. rabs. lra.
    - lra. }
  assert (E3 : 379/10 <= rho' / (2 * t) <= 601/10) by (rabs; lra).
  assert (Pp : 0 <= rho' / rho).
  { apply Rmult_le_reg_r with c; [lra|]. rewrite Rmult_0_l, E. lra. }
  rewrite (Rabs_pos_eq (rho' / rho)) in Hb by exact Pp.
  assert (E4 : Rabs (b * c - rho' / (2 * t)) <= 64 * v + 60 * w).
  { rewrite <- E. replace (b * c - rho' / rho * c) with ((b - rho' / rho) * c) by ring. rewrite Rabs_mult, (Rabs_pos_eq c) by lra.
    assert ((v * (rho' / rho) + w) * c <= 64 * v + 60 * w) by (replace ((v * (rho' / rho) + w) * c) with (v * (rho' / rho * c) + w * c) by ring; rewrite E; apply Rplus_le_compat; [rewrite (Rmult_comm 64 v)|rewrite (Rmult_comm 60 w)]; apply Rmult_le_compat_l; lra).
    eapply Rle_trans; [|exact H1]. apply Rmult_le_compat_r; [lra|exact Hb]. }
  split; [|rabs; lra].
  replace (b * c - Wn / t) with ((b * c - rho' / (2 * t)) + (rho' / (2 * t) - Wn / t)) by ring. eapply Rle_trans; [apply Rabs_triang|]. lra.
Qed.
Lemma c'_close : Rabs (c' - (1 + Wn / t)) <= chi / 81 + 130 * v + 61 * w /\ 37 <= b * c <= c' /\ c' <= 63.
Proof.
  pose proof beta_c_close as [A B]. pose proof Hv. pose proof Hw. rewrite (Rabs_pos_eq (1 + b * c)) in Hc' by lra.
  assert (D : Rabs (c' - (1 + b * c)) <= 66 * v + w) by nra. split; [|rabs; lra]. clear - A D. replace (c' - (1 + Wn / t)) with ((c' - (1 + b * c)) + (b * c - Wn / t)) by ring. eapply Rle_trans; [apply Rabs_triang|]. lra.
Qed.
(** the constant part has the expected size *)
Lemma c'_size : Rabs (c' - T) <= 4 * eta + 4 * tau + chi + 130 * v + 61 * w.
Proof.
  pose proof c'_close as [A _]. pose proof W_close as B. pose proof t_range as R.
  assert (D : Rabs (Wn / t + 1 - T) <= 4 * eta + 4 * tau).
  { replace (Wn / t + 1 - T) with ((Wn - ((1 - t) * (1 - t) + (T - 1))) / t + ((1 - t) * (1 - t) + (T - 1) + t - T * t) / t) by (field; lra).
    assert (D1 : Rabs ((Wn - ((1 - t) * (1 - t) + (T - 1))) / t) <= 4 * eta).
    { unfold Rdiv. rewrite Rabs_mult, (Rabs_pos_eq (/ t)) by (left; apply Rinv_0_lt_compat; lra). apply Rmult_le_reg_r with t; [lra|]. rewrite Rmult_assoc, Rinv_l, Rmult_1_r by lra. nra. }
    assert (D2 : Rabs (((1 - t) * (1 - t) + (T - 1) + t - T * t) / t) <= 4 * tau).
    { unfold Rdiv. rewrite Rabs_mult, (Rabs_pos_eq (/ t)) by (left; apply Rinv_0_lt_compat; lra). apply Rmult_le_reg_r with t; [lra|]. rewrite Rmult_assoc, Rinv_l, Rmult_1_r by lra.
      replace ((1 - t) * (1 - t) + (T - 1) + t - T * t) with ((t - T) * (t - 1)) by ring. eapply Rle_trans; [apply abs_mult_le; [exact Ht|apply Rle_refl]|]. rewrite Rabs_pos_eq by lra. nra. }
    eapply Rle_trans; [apply Rabs_triang|]. lra. }
  rabs. apply Rabs_le. lra.
Qed.
Lemma c'_ge : 40 <= c' <= 51.
Proof. pose proof c'_size as A. pose proof Hv. pose proof Hw. rabs. lra. Qed.
(** the new direction entry that would be zero in exact arithmetic *)
Lemma junk_new z : Rabs (z - (yl + b * c)) <= v * Rabs (yl + b * c) + w -> Rabs z <= tau / 40 + 11/10 * eta + chi / 81 + 200 * v + 62 * w.
Proof.
  intros Hz. pose proof beta_c_close as [A _]. pose proof t_range as R. pose proof Hv. pose proof Hw. 
  assert (D : Rabs (yl + Wn / t) <= tau / 40 + 101/100 * eta).
  { set (x := yl - (1 - t)) in *. set (x2 := yr - (1 - t)) in *.
    replace (yl + Wn / t) with ((T - t) / t + (x / t + x2 * ((1 - t) / t) + (x * x + x2 * x2) / (2 * t))) by (unfold Wn, x, x2; field; lra).
    assert (D1 : Rabs ((T - t) / t) <= tau / 40).
    { unfold Rdiv. rewrite Rabs_mult, (Rabs_pos_eq (/ t)) by (left; apply Rinv_0_lt_compat; lra). rewrite Rabs_minus_sym. apply Rmult_le_compat; [apply Rabs_pos|left; apply Rinv_0_lt_compat; lra|exact Ht|apply Rinv_le_contravar; lra]. }
    assert (D2 : Rabs (x / t + x2 * ((1 - t) / t)) <= eta).
    { replace (x / t + x2 * ((1 - t) / t)) with ((x + x2 * (1 - t)) / t) by (field; lra). unfold Rdiv. rewrite Rabs_mult, (Rabs_pos_eq (/ t)) by (left; apply Rinv_0_lt_compat; lra).
      apply Rmult_le_reg_r with t; [lra|]. rewrite Rmult_assoc, Rinv_l, Rmult_1_r by lra. rabs. apply Rabs_le. clear - Hyl Hyr R Heta. split; nra. }
    assert (D3 : Rabs ((x * x + x2 * x2) / (2 * t)) <= 1/100 * eta).
    { unfold Rdiv. rewrite Rabs_mult, (Rabs_pos_eq (/ (2 * t))) by (left; apply Rinv_0_lt_compat; lra). apply Rmult_le_reg_r with (2 * t); [lra|]. rewrite Rmult_assoc, Rinv_l, Rmult_1_r by lra.
      assert (Rabs (x * x) <= eta * eta) by (apply abs_mult_le; assumption). assert (Rabs (x2 * x2) <= eta * eta) by (apply abs_mult_le; assumption). eapply Rle_trans; [apply Rabs_triang|]. nra. }
    eapply Rle_trans; [apply Rabs_triang|]. eapply Rle_trans; [apply Rplus_le_compat_l, Rabs_triang|]. lra. }
  assert (E : Rabs (yl + b * c) <= tau / 40 + 101/100 * eta + chi / 81 + 64 * v + 60 * w) by (rabs; apply Rabs_le; lra).
  assert (F : v * Rabs (yl + b * c) <= v * 1) by (apply Rmult_le_compat_l; lra). apply Rabs_le_inv in Hz. apply Rabs_le_inv in E. apply Rabs_le. lra.
Qed.
(** the ratio that determines the next step *)
Lemma ratio_next tau' : 1001/1000 * tau + 1/10 * eta + chi / 20 + 170 * v + 80 * w <= tau' -> Rabs (rho' / (2 * c') - (T - 1)) <= tau'.
Proof.
  intros Htau'. pose proof c'_close as [A _]. pose proof c'_ge as C. pose proof W_close as B. pose proof t_range as R. pose proof Hv. pose proof Hw. pose proof c'_size as Cs.
  set (x := t - T) in *.
  (* numerator *)
  assert (N : Rabs (rho' - 2 * c' * (T - 1)) <= 2 * c' * tau').
  { set (W0 := (1 - t) * (1 - t) + (T - 1)) in *.
    assert (E : rho' - 2 * c' * (T - 1) = (rho' - 2 * Wn) - 2 * (T - 1) * (c' - (1 + Wn / t)) + 2 * ((Wn - W0) * ((1 + x) / t)) + 2 * (x * ((T * T - 1 + (2 * (T - 1) + 1) * x + x * x) / t))).
    { unfold W0, x. field. lra. }
    assert (N1 : Rabs (rho' - 2 * Wn) <= chi) by (unfold Wn; replace (2 * ((yl * yl + yr * yr) / 2 + (T - 1))) with (yl * yl + yr * yr + 2 * (T - 1)) by field; exact Hrho').
    assert (N2 : Rabs (2 * (T - 1) * (c' - (1 + Wn / t))) <= 98 * (chi / 81 + 130 * v + 61 * w)) by (apply abs_mult_le; [rewrite Rabs_pos_eq; lra|exact A]).
    assert (N3 : Rabs ((Wn - W0) * ((1 + x) / t)) <= 101 * eta * (1/40)).
    { apply abs_mult_le; [exact B|]. assert (0 <= 1 + x <= 1001/1000) by (rabs; lra). rewrite Rabs_pos_eq.
      - apply Rmult_le_reg_r with t; [lra|]. unfold Rdiv at 1. rewrite Rmult_assoc, Rinv_l, Rmult_1_r by lra. lra.
      - apply Rmult_le_pos; [lra|left; apply Rinv_0_lt_compat; lra]. }
    assert (N4 : Rabs (x * ((T * T - 1 + (2 * (T - 1) + 1) * x + x * x) / t)) <= tau * (1001/1000 * c')).
    { apply abs_mult_le; [exact Ht|]. 
      assert (X : - (1/1000) <= x <= 1/1000) by (rabs; lra). assert (X2 : 0 <= x * x <= 1/1000) by (clear - X; nra).
      assert (Xt : -1/10 <= (2 * (T - 1) + 1) * x <= 1/10) by (clear - X HT; nra).
      rewrite Rabs_pos_eq.
      - apply Rmult_le_reg_r with t; [lra|]. unfold Rdiv at 1. rewrite Rmult_assoc, Rinv_l, Rmult_1_r by lra.
        assert (Cl : T - 1/50 <= c') by (rabs; lra). assert (Tl : T - 1/1000 <= t) by (unfold x in X; lra).
        assert (K : (T - 1/50) * (T - 1/1000) <= c' * t) by (apply Rmult_le_compat; lra). clear - K Xt X2 HT. nra.
      - apply Rmult_le_pos; [clear - Xt X2 HT; nra|left; apply Rinv_0_lt_compat; lra]. }
    rewrite E. clear E. 
    assert (G : 2 * c' * (1001/1000 * tau + 1/10 * eta + chi / 20 + 170 * v + 80 * w) <= 2 * c' * tau') by (apply Rmult_le_compat_l; lra).
    eapply Rle_trans; [|exact G]. 
    assert (G1 : 2 * c' * (1/10 * eta + chi / 20 + 170 * v + 80 * w) >= 80 * (1/10 * eta + chi / 20 + 170 * v + 80 * w)) by (apply Rmult_ge_compat_r; lra).
    rabs. apply Rabs_le. lra. }
  replace (rho' / (2 * c') - (T - 1)) with ((rho' - 2 * c' * (T - 1)) / (2 * c')) by (field; lra).
  unfold Rdiv. rewrite Rabs_mult, (Rabs_pos_eq (/ (2 * c'))) by (left; apply Rinv_0_lt_compat; lra).
  apply Rmult_le_reg_r with (2 * c'); [lra|]. rewrite Rmult_assoc, Rinv_l, Rmult_1_r by lra. lra.
Qed.
(** the next residual norm *)
Lemma norm_next : Rabs (rho' - 2 * ((T - 1) * (T - 1) + (T - 1))) <= chi + 202 * eta + 200 * tau.
Proof.
  pose proof W_close as B. pose proof t_range as R.
  assert (E : Rabs ((1 - t) * (1 - t) - (T - 1) * (T - 1)) <= 100 * tau).
  { replace ((1 - t) * (1 - t) - (T - 1) * (T - 1)) with ((t - T) * (t + T - 2)) by ring. eapply Rle_trans; [apply abs_mult_le; [exact Ht|apply Rle_refl]|]. rewrite Rabs_pos_eq by lra. nra. }
  assert (N1 : Rabs (rho' - 2 * Wn) <= chi) by (unfold Wn; replace (2 * ((yl * yl + yr * yr) / 2 + (T - 1))) with (yl * yl + yr * yr + 2 * (T - 1)) by field; exact Hrho').
  rabs. apply Rabs_le. lra.
Qed.
Lemma next_all : (37 <= b * c <= c' /\ 40 <= c' <= 51) /\
  (forall z, Rabs (z - (yl + b * c)) <= v * Rabs (yl + b * c) + w -> Rabs z <= tau / 40 + 11/10 * eta + chi / 81 + 200 * v + 62 * w) /\
  (forall tau', 1001/1000 * tau + 1/10 * eta + chi / 20 + 170 * v + 80 * w <= tau' -> Rabs (rho' / (2 * c') - (T - 1)) <= tau') /\
  Rabs (rho' - 2 * ((T - 1) * (T - 1) + (T - 1))) <= chi + 202 * eta + 200 * tau.
Proof using All. split; [split; [apply c'_close|exact c'_ge]|]. split; [exact junk_new|]. split; [exact ratio_next|exact norm_next]. Qed.
End Scalars.
