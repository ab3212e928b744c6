(** LaplacianStep: one CG step on the 1-D Laplacian of 100 points with right-hand side 1, with rounding errors: how the errors grow (real analysis for C82). *)
From Coq Require Import Reals Lra Lia.
From Verif Require Import Base Launch ExactSum LinAlg PropsLaplacian LaplacianCG LaplacianRounding.
Set Implicit Arguments.
Local Open Scope R_scope.

(** ** Sums over the points, by depth *)
Lemma Rsum_abs_bound {I} (f g : I -> R) l : (forall i, In i l -> Rabs (f i) <= g i) -> Rabs (Rsum f l) <= Rsum g l.
Proof.
  induction l as [|i l IH]; intros H; rewrite ?Rsum_nil, ?Rsum_cons; [rewrite Rabs_R0; lra|]. eapply Rle_trans; [apply Rabs_triang|]. apply Rplus_le_compat; [apply H; left; reflexivity|apply IH; intros j Hj; apply H; right; exact Hj].
Qed.
Lemma Rsum_depth_close n (f : nat -> R) k b (B : nat -> R) : (2 * S k <= n)%nat ->
  (forall i, (i < n)%nat -> (depth n i < k)%nat -> Rabs (f i) <= B (depth n i)) -> (forall i, (i < n)%nat -> (k < depth n i)%nat -> f i = b) ->
  Rabs (Rsum f (seq 0 n) - (f k + f (n - 1 - k)%nat + (INR n - 2 * INR (S k)) * b)) <= 2 * Rsum B (seq 0 k).
Proof.
  intros Hk H0 H2. unfold depth in *.
  assert (E : seq 0 n = (seq 0 k ++ [k]) ++ seq (S k) (n - 2 * S k) ++ [(n - 1 - k)%nat] ++ seq (n - k) k).
  { transitivity (seq 0 (k + (1 + ((n - 2 * S k) + (1 + k))))); [f_equal; lia|]. rewrite (seq_app k), (seq_app 1), (seq_app (n - 2 * S k)), (seq_app 1 k). cbn [Nat.add seq app]. rewrite <- app_assoc. cbn [app].
    f_equal. f_equal. replace (k + 1)%nat with (S k) by lia. f_equal. f_equal; [lia|]. f_equal. lia. }
  rewrite E, !Rsum_app, !Rsum_cons, !Rsum_nil.
  rewrite (Rsum_ext f (fun _ => b) (seq (S k) (n - 2 * S k))) by (intros i Hi; apply in_seq in Hi; apply H2; lia).
  rewrite !Rsum_const. rewrite minus_INR by exact Hk. rewrite mult_INR. replace (INR 2) with 2 by (cbn; ring).
  match goal with |- Rabs ?z <= _ => replace z with (Rsum f (seq 0 k) + Rsum f (seq (n - k) k)) by ring end.
  assert (A1 : Rabs (Rsum f (seq 0 k)) <= Rsum B (seq 0 k)).
  { apply Rsum_abs_bound. intros i Hi. apply in_seq in Hi. assert (Ei : Nat.min i (n - 1 - i) = i) by lia. rewrite <- Ei at 2. apply H0; lia. }
  assert (A2 : Rabs (Rsum f (seq (n - k) k)) <= Rsum B (seq 0 k)).
  { eapply Rle_trans; [apply (Rsum_abs_bound f (fun i => B (n - 1 - i)%nat))|].
    - intros i Hi. apply in_seq in Hi. assert (Ei : Nat.min i (n - 1 - i) = (n - 1 - i)%nat) by lia. rewrite <- Ei. apply H0; lia.
    - right. clear - Hk. assert (G : forall m a, (a + m <= k)%nat -> Rsum (fun i => B (n - 1 - i)%nat) (seq (n - a - m) m) = Rsum B (seq a m)).
      { induction m as [|m IH]; intros a Ha; [reflexivity|]. rewrite (seq_S m (n - a - S m)), Rsum_app, Rsum_cons, Rsum_nil. cbn [seq]. rewrite Rsum_cons.
        replace (n - a - S m)%nat with (n - S a - m)%nat by lia. rewrite IH by lia. replace (n - 1 - (n - S a - m + m))%nat with a by lia. ring. }
      specialize (G k 0%nat ltac:(lia)). rewrite <- G. f_equal. f_equal. lia. }
  eapply Rle_trans; [apply Rabs_triang|]. lra.
Qed.
Lemma Rsum_edge B X k : 0 <= B -> 0 <= X -> Rsum (fun j => if (S j =? k)%nat then B else X) (seq 0 k) <= B + INR k * X.
Proof.
  intros HB HX. destruct k as [|k]; [cbn [seq]; rewrite Rsum_nil; cbn; lra|]. rewrite seq_S, Rsum_app, Rsum_cons, Rsum_nil. cbn [Nat.add]. rewrite Nat.eqb_refl.
  rewrite (Rsum_ext _ (fun _ => X)) by (intros i Hi; apply in_seq in Hi; destruct (Nat.eqb_spec (S i) (S k)); [lia|reflexivity]). rewrite Rsum_const, S_INR. nra.
Qed.

(** ** The state after [k] steps: the exact iterate (LaplacianCG.v) with errors.  [c]: the constant part of the direction; [rho]: the computed squared norm *)
Record lstate (n k : nat) (c rho d kap rr tau : R) (p r : nat -> R) : Prop := mk_lstate {
  ls_c : 1 <= c <= 60;
  ls_tau : Rabs (rho / (2 * c) - (50 - INR k)) <= tau;
  ls_in : forall i, (i < n)%nat -> (k <= depth n i)%nat -> p i = c /\ r i = 1;
  ls_edge : forall i, (i < n)%nat -> S (depth n i) = k -> Rabs (p i) <= d * c /\ Rabs (r i + (50 - INR k)) <= rr;
  ls_out : forall i, (i < n)%nat -> (S (depth n i) < k)%nat -> Rabs (r i) <= rr;
  ls_junk : forall i, (i < n)%nat -> (depth n i < k)%nat -> Rabs (p i) <= kap * c }.

Section Step.
Variables v w g e0 : R.
Hypothesis Hv : 0 <= v <= 12/100000000000000000.
Hypothesis Hw : 0 <= w <= 1/1000000000000000000000000000000.
Hypothesis Hg : 0 <= g <= 12/1000000000000000.
Hypothesis He0 : 0 <= e0 <= 1/1000000000000000.
Variables n k : nat.
Hypothesis Hn : n = 100%nat.
Hypothesis Hk : (k <= 9)%nat.
Variables c rho d kap rr tau : R.
Variables p r q r' p' : nat -> R.
Hypothesis S0 : lstate n k c rho d kap rr tau p r.
Hypothesis Hd : 0 <= d <= 1/1000000.
Hypothesis Hkap : 0 <= kap <= 25/10000000.
Hypothesis Hrr : 0 <= rr <= 1/1000.
Hypothesis Htau : 0 <= tau <= 1/1000.
Variables sigma a rho1 b c1 : R.
(** the product *)
Hypothesis Hq : forall i, (i < n)%nat -> Rabs (q i - lap_row_sum n p i) <= e0 * (2 * Rabs (p i) + Rabs (match i with O => 0 | S j => p j end) + Rabs (outside_zero n p (S i))) + w.
Hypothesis Hq0 : forall i, (i < n)%nat -> (k < depth n i)%nat -> q i = 0.
Hypothesis Hsigma : Rabs (sigma - Rsum (fun i => p i * q i) (seq 0 n)) <= g * Rsum (fun i => Rabs (p i * q i)) (seq 0 n) + w.
Hypothesis Ha : Rabs (a - rho / sigma) <= v * Rabs (rho / sigma) + w.
Hypothesis Hr' : forall i, (i < n)%nat -> Rabs (r' i - (r i - a * q i)) <= v * Rabs (r i - a * q i) + w.
Hypothesis Hr0 : forall i, (i < n)%nat -> (k < depth n i)%nat -> r' i = 1.
Hypothesis Hrho1 : Rabs (rho1 - Rsum (fun i => r' i * r' i) (seq 0 n)) <= g * Rsum (fun i => r' i * r' i) (seq 0 n) + w.
Hypothesis Hb : Rabs (b - rho1 / rho) <= v * Rabs (rho1 / rho) + w.
Hypothesis Hp' : forall i, (i < n)%nat -> Rabs (p' i - (r' i + b * p i)) <= v * Rabs (r' i + b * p i) + w.
Hypothesis Hp0 : forall i, (i < n)%nat -> (k < depth n i)%nat -> p' i = c1.

Definition eps : R := 4 * e0 + w.
Lemma eps_small : 0 <= eps <= 5/1000000000000000.
Proof. unfold eps. lra. Qed.
Lemma k_range : 0 <= INR k <= 9.
Proof. split; [apply pos_INR|]. apply le_INR in Hk. cbn in Hk. lra. Qed.
Lemma n_val : INR n = 100.
Proof. rewrite Hn, INR_IZR_INZ. reflexivity. Qed.
Lemma p_le_c i : (i < n)%nat -> Rabs (p i) <= c.
Proof.
  destruct S0 as [Hc _ Hin _ _ Hj]. intros Hi. destruct (Nat.le_gt_cases k (depth n i)) as [L|L]; [destruct (Hin i Hi L) as [-> _]; rewrite Rabs_pos_eq; lra|]. eapply Rle_trans; [apply Hj; assumption|]. nra.
Qed.
Lemma q_err i : (i < n)%nat -> Rabs (q i - lap_row_sum n p i) <= eps * c.
Proof.
  intros Hi. destruct S0 as [Hc _ _ _ _ _]. eapply Rle_trans; [apply Hq; exact Hi|].
  assert (A1 : Rabs (match i with O => 0 | S j => p j end) <= c) by (destruct i; [rewrite Rabs_R0; lra|apply p_le_c; lia]).
  assert (A2 : Rabs (outside_zero n p (S i)) <= c) by (unfold outside_zero; destruct (Nat.ltb_spec (S i) n); [apply p_le_c; assumption|rewrite Rabs_R0; lra]).
  pose proof (p_le_c Hi). unfold eps. assert (e0 * (2 * Rabs (p i) + Rabs (match i with O => 0 | S j => p j end) + Rabs (outside_zero n p (S i))) <= e0 * (4 * c)) by (apply Rmult_le_compat_l; lra). nra.
Qed.
(** the product on the outermost point of the constant part *)
Lemma q_edge i : (i < n)%nat -> depth n i = k -> Rabs (q i - c) <= c * (d + eps).
Proof.
  clear Hsigma Ha Hr' Hr0 Hrho1 Hb Hp' Hp0.
  destruct S0 as [Hc _ Hin He _ _]. intros Hi D. pose proof (q_err Hi) as Q. pose proof eps_small. unfold depth in *.
  destruct (Hin i Hi ltac:(lia)) as [Pi _]. unfold lap_row_sum in Q. rewrite Pi in Q.
  assert (G : exists z, Rabs z <= d * c /\ 2 * c - match i with O => 0 | S j => p j end - outside_zero n p (S i) = c - z).
  { destruct (Nat.le_gt_cases i (n - 1 - i)) as [L|L].
    - unfold outside_zero. destruct (Nat.ltb_spec (S i) n); [|lia]. destruct (Hin (S i) ltac:(lia) ltac:(lia)) as [-> _]. destruct i as [|j].
      + exists 0. split; [rewrite Rabs_R0; nra|ring].
      + exists (p j). split; [|ring]. apply (He j); lia.
    - destruct i as [|j]; [lia|]. destruct (Hin j ltac:(lia) ltac:(lia)) as [-> _]. unfold outside_zero. destruct (Nat.ltb_spec (S (S j)) n).
      + exists (p (S (S j))). split; [|ring]. apply (He (S (S j))); lia.
      + exists 0. split; [rewrite Rabs_R0; nra|ring]. }
  destruct G as [z [Z1 Z2]]. rewrite Z2 in Q. rabs. apply Rabs_le. split; nra.
Qed.
(** the product on the point next to it *)
Lemma q_next i : (i < n)%nat -> S (depth n i) = k -> Rabs (q i + c) <= c * (2 * d + kap + eps).
Proof.
  clear Hsigma Ha Hr' Hr0 Hrho1 Hb Hp' Hp0.
  destruct S0 as [Hc _ Hin He _ Hj]. intros Hi D. pose proof (q_err Hi) as Q. pose proof eps_small.
  destruct (He i Hi D) as [Pi _]. unfold lap_row_sum in Q. unfold depth in *.
  assert (G : exists z, Rabs z <= kap * c /\ 2 * p i - match i with O => 0 | S j => p j end - outside_zero n p (S i) = 2 * p i - z - c).
  { destruct (Nat.le_gt_cases i (n - 1 - i)) as [L|L].
    - unfold outside_zero. destruct (Nat.ltb_spec (S i) n); [|lia]. destruct (Hin (S i) ltac:(lia) ltac:(lia)) as [-> _]. destruct i as [|j].
      + exists 0. split; [rewrite Rabs_R0; nra|ring].
      + exists (p j). split; [|ring]. apply (Hj j); lia.
    - destruct i as [|j]; [lia|]. destruct (Hin j ltac:(lia) ltac:(lia)) as [-> _]. unfold outside_zero. destruct (Nat.ltb_spec (S (S j)) n).
      + exists (p (S (S j))). split; [|ring]. apply (Hj (S (S j))); lia.
      + exists 0. split; [rewrite Rabs_R0; nra|ring]. }
  destruct G as [z [Z1 Z2]]. rewrite Z2 in Q. rabs. apply Rabs_le. split; lra.
Qed.
(** the product further outside *)
Lemma q_out i : (i < n)%nat -> (S (depth n i) < k)%nat -> Rabs (q i) <= c * (4 * kap + eps).
Proof.
  clear Hsigma Ha Hr' Hr0 Hrho1 Hb Hp' Hp0.
  destruct S0 as [Hc _ Hin He _ Hj]. intros Hi D. pose proof (q_err Hi) as Q. unfold lap_row_sum in Q. pose proof eps_small.
  assert (Pi : Rabs (p i) <= kap * c) by (apply Hj; [exact Hi|lia]). unfold depth in *.
  assert (A1 : Rabs (match i with O => 0 | S j => p j end) <= kap * c) by (destruct i; [rewrite Rabs_R0; nra|apply Hj; lia]).
  assert (A2 : Rabs (outside_zero n p (S i)) <= kap * c) by (unfold outside_zero; destruct (Nat.ltb_spec (S i) n); [apply Hj; lia|rewrite Rabs_R0; nra]).
  rabs. apply Rabs_le. split; lra.
Qed.

(** *** the dot product of direction and product *)
Definition serr : R := 201/100 * d + kap / 10000 + eps + 11/10 * g + w.
Lemma pq_sum : Rabs (Rsum (fun i => p i * q i) (seq 0 n) - 2 * (c * c)) <= 2 * (c * c) * (d + eps + 1001/1000 * d + 9 * (kap * (4 * kap + eps))) /\
  Rsum (fun i => Rabs (p i * q i)) (seq 0 n) <= 2 * (c * c) * (1 + d + eps + 1001/1000 * d + 9 * (kap * (4 * kap + eps))).
Proof.
  clear Hsigma Ha Hr' Hr0 Hrho1 Hb Hp' Hp0.
  destruct S0 as [Hc _ Hin He _ Hj]. pose proof eps_small as Heps. pose proof k_range as Kr.
  assert (Edge : forall i, (i < n)%nat -> depth n i = k -> Rabs (p i * q i - c * c) <= c * c * (d + eps)).
  { intros i Hi D. destruct (Hin i Hi ltac:(lia)) as [-> _]. replace (c * q i - c * c) with (c * (q i - c)) by ring. rewrite Rabs_mult, (Rabs_pos_eq c) by lra.
    rewrite Rmult_assoc. apply Rmult_le_compat_l; [lra|]. apply q_edge; assumption. }
  set (B := 1001/1000 * d * (c * c)). set (X := kap * (4 * kap + eps) * (c * c)).
  assert (Cc : 1 <= c * c) by nra. assert (HB : 0 <= B) by (unfold B; apply Rmult_le_pos; lra). assert (HX : 0 <= X) by (unfold X; apply Rmult_le_pos; [|lra]; apply Rmult_le_pos; lra).
  assert (Junk : forall i, (i < n)%nat -> (depth n i < k)%nat -> Rabs (p i * q i) <= if (S (depth n i) =? k)%nat then B else X).
  { intros i Hi D. destruct (Nat.eqb_spec (S (depth n i)) k) as [E|E].
    - destruct (He i Hi E) as [P1 _]. pose proof (q_next Hi E) as Q1. assert (Q2 : Rabs (q i) <= 1001/1000 * c).
      { assert (c * (2 * d + kap + eps) <= c * (1/1000)) by (apply Rmult_le_compat_l; lra). clear - Q1 H. rabs. apply Rabs_le. lra. }
      eapply Rle_trans; [apply abs_mult_le; [exact P1|exact Q2]|]. unfold B. right. ring.
    - eapply Rle_trans; [apply abs_mult_le; [apply Hj; assumption|apply q_out; [exact Hi|lia]]|]. unfold X. right. ring. }
  assert (SB := @Rsum_edge B X k HB HX). assert (SB2 : B + INR k * X <= B + 9 * X) by (assert (INR k * X <= 9 * X) by (apply Rmult_le_compat_r; lra); lra).
  assert (Dk : depth n k = k) by (unfold depth; lia). assert (Dk' : depth n (n - 1 - k) = k) by (unfold depth; lia).
  pose proof (Edge k ltac:(lia) Dk) as E1. pose proof (Edge (n - 1 - k)%nat ltac:(lia) Dk') as E2.
  split.
  - assert (R := @Rsum_depth_close n (fun i => p i * q i) k 0 (fun j => if (S j =? k)%nat then B else X) ltac:(lia) Junk).
    specialize (R ltac:(intros i Hi D; cbn beta; rewrite (Hq0 Hi D); ring)). unfold B, X in *. rabs. apply Rabs_le. split; lra.
  - assert (R := @Rsum_depth_close n (fun i => Rabs (p i * q i)) k 0 (fun j => if (S j =? k)%nat then B else X) ltac:(lia)).
    specialize (R ltac:(intros i Hi D; cbn beta; rewrite Rabs_Rabsolu; apply Junk; assumption) ltac:(intros i Hi D; cbn beta; rewrite (Hq0 Hi D), Rmult_0_r; apply Rabs_R0)).
    assert (F : forall x, Rabs (x - c * c) <= c * c * (d + eps) -> Rabs x <= c * c * (1 + d + eps)) by (intros x Hx; rabs; apply Rabs_le; split; nra).
    apply F in E1. apply F in E2. unfold B, X in *. apply Rabs_le_inv in R. lra.
Qed.
Lemma sigma_close : Rabs (sigma - 2 * (c * c)) <= 2 * (c * c) * serr.
Proof.
  clear Ha Hr' Hr0 Hrho1 Hb Hp' Hp0.
  destruct pq_sum as [A1 A2]. destruct S0 as [Hc _ _ _ _ _]. pose proof eps_small as Heps.
  assert (Cc : 1 <= c * c) by nra.
  assert (K : 9 * (kap * (4 * kap + eps)) <= kap / 10000) by nra.
  set (z := d + eps + 1001/1000 * d + 9 * (kap * (4 * kap + eps))) in *.
  assert (Z0 : 0 <= kap * (4 * kap + eps)) by (apply Rmult_le_pos; lra).
  assert (Z : 0 <= z <= 201/100 * d + kap / 10000 + eps - 9/1000 * d) by (unfold z; lra).
  replace (1 + d + eps + 1001/1000 * d + 9 * (kap * (4 * kap + eps))) with (1 + z) in A2 by (unfold z; ring).
  assert (A3 : g * Rsum (fun i => Rabs (p i * q i)) (seq 0 n) <= g * (2 * (c * c) * (11/10))) by (apply Rmult_le_compat_l; [lra|]; eapply Rle_trans; [exact A2|]; apply Rmult_le_compat_l; lra).
  assert (A4 : 2 * (c * c) * z + g * (2 * (c * c) * (11/10)) + w <= 2 * (c * c) * serr).
  { unfold serr. assert (2 * (c * c) * z <= 2 * (c * c) * (201/100 * d + kap / 10000 + eps)) by (apply Rmult_le_compat_l; lra). assert (w <= 2 * (c * c) * w) by nra. lra. }
  rabs. apply Rabs_le. lra.
Qed.
(** *** the step length and the next residual *)
Notation TT := (50 - INR k).
Definition tval : R := rho / (2 * c).
Definition etab : R := 51 * (1002/1000 * serr + 4 * v + 101/100 * (d + eps)) + 10 * w + 102 * w.
Definition rr1 : R := rr + tau + 51 * (1002/1000 * serr + 2 * v + 2 * w) + 51 * (2 * d + 4 * kap + eps) + etab + v + w.
Hypothesis Hrr1 : rr1 <= 1/1000.
Lemma serr_small : 0 <= serr <= 1/100000.
Proof. pose proof eps_small. unfold serr. lra. Qed.
Lemma etab_small : 0 <= etab <= 1/1000.
Proof. pose proof eps_small. pose proof serr_small. unfold rr1 in Hrr1. unfold etab in *. lra. Qed.
Lemma T_range : 41 <= TT <= 50.
Proof. pose proof k_range. lra. Qed.
Lemma alpha_facts : 40999/1000 <= tval <= 50001/1000 /\ Rabs (a * c - tval) <= 51 * (1002/1000 * serr + 2 * v + 2 * w) /\ 0 <= a * c <= 51 /\
  (forall i, (i < n)%nat -> depth n i = k -> Rabs (r' i - (1 - tval)) <= etab).
Proof.
  pose proof S0 as [Hc Ht Hin _ _ _]. pose proof eps_small as Heps. pose proof serr_small as Hs. pose proof T_range as HT.
  assert (Et : rho = 2 * c * tval) by (unfold tval; field; lra).
  assert (Tr : 40999/1000 <= tval <= 50001/1000) by (unfold tval; rabs; lra).
  destruct (@alpha_all v w Hv Hw TT c tval rho tau d HT Hc Et Htau Ht ltac:(lra) serr sigma a ltac:(lra) sigma_close Ha) as [A1 A2].
  assert (A3 : Rabs (a * c - tval) <= 51 * (1002/1000 * serr + 2 * v + 2 * w)) by (eapply Rle_trans; [exact A1|]; apply Rmult_le_compat_r; lra).
  split; [exact Tr|]. split; [exact A3|]. split; [apply Rabs_le_inv in A3; lra|]. intros i Hi D.
  apply (A2 (q i) (r' i) eps etab); [lra|apply q_edge; assumption| |unfold etab; lra]. destruct (Hin i Hi ltac:(lia)) as [_ R1]. rewrite <- R1. apply Hr'. exact Hi.
Qed.
Lemma r1_junk i : (i < n)%nat -> (depth n i < k)%nat -> Rabs (r' i) <= rr1.
Proof.
  pose proof S0 as [Hc Ht _ He Ho _]. pose proof eps_small as Heps. pose proof serr_small as Hs. pose proof etab_small as Het. destruct alpha_facts as (Tr & A1 & A2 & _). fold tval in Ht. intros Hi D.
  assert (Y : Rabs (r i - a * q i) <= rr + tau + 51 * (1002/1000 * serr + 2 * v + 2 * w) + 51 * (2 * d + 4 * kap + eps)).
  { assert (M : forall x m, 0 <= m -> Rabs x <= c * m -> Rabs (a * x) <= 51 * m).
    { intros x m Hm Hx. assert (Ea : 0 <= a) by (apply Rmult_le_reg_r with c; lra). rewrite Rabs_mult, (Rabs_pos_eq a) by exact Ea.
      apply Rle_trans with (a * (c * m)); [apply Rmult_le_compat_l; assumption|]. rewrite <- Rmult_assoc. apply Rmult_le_compat_r; lra. }
    destruct (Nat.eq_dec (S (depth n i)) k) as [E|E].
    - destruct (He i Hi E) as [_ R1]. pose proof (M (q i + c) (2 * d + kap + eps) ltac:(lra) (q_next Hi E)) as M1.
      replace (r i - a * q i) with ((r i + TT) + (tval - TT) + (a * c - tval) - a * (q i + c)) by ring. clear - R1 Ht A1 M1 Hkap Heps. rabs. apply Rabs_le. lra.
    - pose proof (Ho i Hi ltac:(lia)) as R1. pose proof (M (q i) (4 * kap + eps) ltac:(lra) (@q_out i Hi ltac:(lia))) as M1. clear - R1 M1 Heps Htau Hs Hv Hw Hd Hkap. rabs. apply Rabs_le. lra. }
  pose proof (Hr' Hi) as R2.
  assert (Yv : v * Rabs (r i - a * q i) <= v * 1).
  { apply Rmult_le_compat_l; [lra|]. eapply Rle_trans; [exact Y|]. unfold rr1 in Hrr1. lra. }
  unfold rr1. clear - Y R2 Yv Het. rabs. apply Rabs_le. lra.
Qed.
Lemma r1_edge i : (i < n)%nat -> depth n i = k -> Rabs (r' i + (TT - 1)) <= rr1.
Proof.
  pose proof S0 as [Hc Ht _ _ _ _]. pose proof eps_small as Heps. pose proof serr_small as Hs. intros Hi D. destruct alpha_facts as (_ & _ & _ & A). specialize (A i Hi D). fold tval in Ht.
  unfold rr1. clear - A Ht Heps Hs Hv Hw Hd Hkap Hrr. rabs. apply Rabs_le. lra.
Qed.
Definition chib : R := 18 * (rr1 * rr1) + 5000 * g + w.
Lemma rr1_nonneg : 0 <= rr1.
Proof. pose proof eps_small. pose proof serr_small. pose proof etab_small. unfold rr1. lra. Qed.
Lemma chib_small : 0 <= chib <= 1/1000.
Proof. pose proof rr1_nonneg as H. assert (0 <= rr1 * rr1 <= 1/1000 * (1/1000)) by (apply mult_between; lra). unfold chib. lra. Qed.
Lemma rho1_close : Rabs (rho1 - (r' k * r' k + r' (n - 1 - k)%nat * r' (n - 1 - k)%nat + 2 * (TT - 1))) <= chib.
Proof.
  pose proof rr1_nonneg as H0. pose proof k_range as Kr. assert (Sq : 0 <= rr1 * rr1 <= 1/1000 * (1/1000)) by (apply mult_between; lra).
  assert (Dk : depth n k = k) by (unfold depth; lia). assert (Dk' : depth n (n - 1 - k) = k) by (unfold depth; lia).
  pose proof (@r1_edge k ltac:(lia) Dk) as E1. pose proof (@r1_edge (n - 1 - k)%nat ltac:(lia) Dk') as E2. pose proof T_range as HT.
  assert (R := @Rsum_depth_close n (fun i => r' i * r' i) k 1 (fun _ => rr1 * rr1) ltac:(lia)).
  specialize (R ltac:(intros i Hi D; cbn beta; apply abs_mult_le; apply r1_junk; assumption) ltac:(intros i Hi D; cbn beta; rewrite (Hr0 Hi D); ring)).
  rewrite Rsum_const in R. cbn beta in R. rewrite n_val, S_INR in R. set (Sg := Rsum (fun i => r' i * r' i) (seq 0 n)) in *. set (yl := r' k) in *. set (yr := r' (n - 1 - k)%nat) in *.
  assert (R' : Rabs (Sg - (yl * yl + yr * yr + 2 * (TT - 1))) <= 18 * (rr1 * rr1)).
  { replace (yl * yl + yr * yr + 2 * (TT - 1)) with (yl * yl + yr * yr + (100 - 2 * (INR k + 1)) * 1) by ring. eapply Rle_trans; [exact R|]. assert (INR k * (rr1 * rr1) <= 9 * (rr1 * rr1)) by (apply Rmult_le_compat_r; lra). lra. }
  assert (Sq2 : forall y, Rabs (y + (TT - 1)) <= rr1 -> y * y <= 2402).
  { intros y Hy. assert (- (49001/1000) <= y <= 49001/1000) by (rabs; lra). clear - H. nra. }
  assert (Sb : g * Sg <= g * 5000) by (apply Rmult_le_compat_l; [lra|]; pose proof (Sq2 _ E1); pose proof (Sq2 _ E2); clear - R' H H1 HT Sq; rabs; lra).
  unfold chib. clear - R' Sb Hrho1. rabs. apply Rabs_le. lra.
Qed.

(** *** the next state *)
Definition d1 : R := (tau / 40 + 11/10 * etab + chib / 81 + 200 * v + 62 * w) / 40.
Definition kap1 : R := rr1 / 40 + kap + v + w + d1.
Definition tau1 : R := 1001/1000 * tau + 1/10 * etab + chib / 20 + 170 * v + 80 * w.
Lemma d1_nonneg : 0 <= d1.
Proof. pose proof etab_small. pose proof chib_small. unfold d1. lra. Qed.
Theorem lstate_step : lstate n (S k) c1 rho1 d1 kap1 rr1 tau1 p' r' /\
  Rabs (rho1 - 2 * ((TT - 1) * (TT - 1) + (TT - 1))) <= chib + 202 * etab + 200 * tau.
Proof.
  pose proof S0 as [Hc Ht Hin _ _ Hj]. pose proof eps_small as Heps. pose proof serr_small as Hs. pose proof T_range as HT. pose proof etab_small as Het. pose proof chib_small as Hch. pose proof d1_nonneg as Hd1. pose proof rr1_nonneg as Hr1n.
  destruct alpha_facts as (_ & _ & _ & Yl). fold tval in Ht. pose proof rho1_close as Rc.
  assert (Dk : depth n k = k) by (unfold depth; lia). assert (Dk' : depth n (n - 1 - k) = k) by (unfold depth; lia).
  assert (Et : rho = 2 * c * tval) by (unfold tval; field; lra).
  pose proof (Yl k ltac:(lia) Dk) as Y1. pose proof (Yl (n - 1 - k)%nat ltac:(lia) Dk') as Y2.
  assert (C1 : Rabs (c1 - (1 + b * c)) <= v * Rabs (1 + b * c) + w).
  { assert (D : (k < depth n (S k))%nat) by (unfold depth; lia). assert (Hi : (S k < n)%nat) by lia. pose proof (Hp' Hi) as P. rewrite (Hp0 Hi D), (Hr0 Hi D) in P. destruct (Hin (S k) Hi ltac:(lia)) as [E _]. rewrite E in P. exact P. }
  destruct (@next_all v w Hv Hw TT c tval rho tau d HT Hc Et Htau Ht ltac:(lra) serr sigma a ltac:(lra) sigma_close Ha _ _ etab chib rho1 b c1 Het Y1 Y2 Hch Rc Hb C1) as ((B1 & B2) & J1 & N1 & N2).
  assert (Rc2 : Rabs (rho1 - (r' (n - 1 - k)%nat * r' (n - 1 - k)%nat + r' k * r' k + 2 * (TT - 1))) <= chib) by (rewrite (Rplus_comm (r' (n - 1 - k)%nat * _)); exact Rc).
  destruct (@next_all v w Hv Hw TT c tval rho tau d HT Hc Et Htau Ht ltac:(lra) serr sigma a ltac:(lra) sigma_close Ha _ _ etab chib rho1 b c1 Het Y2 Y1 Hch Rc2 Hb C1) as (_ & J2 & _ & _).
  split; [|exact N2].
  assert (Edge : forall i, (i < n)%nat -> depth n i = k -> Rabs (p' i) <= d1 * c1).
  { intros i Hi D. pose proof (Hp' Hi) as P. destruct (Hin i Hi ltac:(lia)) as [Ep _]. rewrite Ep in P.
    assert (X : Rabs (p' i) <= d1 * 40).
    { unfold d1. match goal with |- _ <= ?z / 40 * 40 => replace (z / 40 * 40) with z by field end. assert (Ei : i = k \/ i = (n - 1 - k)%nat) by (unfold depth in D; lia).
      destruct Ei as [-> | ->]; [apply J1|apply J2]; exact P. }
    eapply Rle_trans; [exact X|]. apply Rmult_le_compat_l; lra. }
  constructor.
  - lra.
  - rewrite S_INR. replace (50 - (INR k + 1)) with (TT - 1) by ring. apply N1. unfold tau1. lra.
  - intros i Hi D. split; [apply Hp0|apply Hr0]; solve [exact Hi|lia].
  - intros i Hi D. assert (D' : depth n i = k) by lia. split; [apply Edge; assumption|]. rewrite S_INR. replace (50 - (INR k + 1)) with (TT - 1) by ring. apply r1_edge; assumption.
  - intros i Hi D. apply r1_junk; [exact Hi|lia].
  - intros i Hi D. destruct (Nat.eq_dec (depth n i) k) as [E|E].
    + eapply Rle_trans; [apply Edge; assumption|]. apply Rmult_le_compat_r; [lra|]. unfold kap1. lra.
    + assert (L : (depth n i < k)%nat) by lia. pose proof (@r1_junk i Hi L) as R1. pose proof (Hj i Hi L) as P1. pose proof (Hp' Hi) as P2.
      assert (Eb : 0 <= b) by (apply Rmult_le_reg_r with c; lra).
      assert (Bp : Rabs (b * p i) <= c1 * kap).
      { rewrite Rabs_mult, (Rabs_pos_eq b) by exact Eb. apply Rle_trans with (b * (kap * c)); [apply Rmult_le_compat_l; assumption|]. replace (b * (kap * c)) with (b * c * kap) by ring. apply Rmult_le_compat_r; lra. }
      assert (Sum : Rabs (r' i + b * p i) <= rr1 + c1 * kap) by (eapply Rle_trans; [apply Rabs_triang|]; lra).
      assert (Ck : c1 * kap <= 1/1000) by (apply Rle_trans with (51 * (25/10000000)); [apply Rmult_le_compat; lra|lra]).
      assert (Sv : v * Rabs (r' i + b * p i) <= v * 1) by (apply Rmult_le_compat_l; lra).
      assert (Q : Rabs (p' i) <= rr1 + c1 * kap + v + w) by (clear - Sum Sv P2; rabs; apply Rabs_le; lra).
      eapply Rle_trans; [exact Q|]. unfold kap1. assert (K1 : rr1 <= rr1 / 40 * c1) by (replace rr1 with (rr1 / 40 * 40) at 1 by field; apply Rmult_le_compat_l; lra).
      assert (K2 : v + w + d1 * c1 <= (v + w + d1) * c1) by (assert (v + w <= (v + w) * c1) by (replace (v + w) with ((v + w) * 1) at 1 by ring; apply Rmult_le_compat_l; lra); lra). assert (0 <= d1 * c1) by (apply Rmult_le_pos; lra). lra.
Qed.
End Step.

(** ** The error bounds after each of the first ten steps *)
Definition t_d (k : nat) : R := match k with | 0 => 0 | 1 => 500040646/10000000000000000000000 | 2 => 2640550709/10000000000000000000000 | 3 => 11745441749/10000000000000000000000 | 4 => 50425133436/10000000000000000000000 | 5 => 214755004760/10000000000000000000000 | 6 => 913324252901/10000000000000000000000 | 7 => 3886312982602/10000000000000000000000 | 8 => 16568032775330/10000000000000000000000 | 9 => 71138793520183/10000000000000000000000 | _ => 322549135120974/10000000000000000000000 end.
Definition t_kap (k : nat) : R := match k with | 0 => 0 | 1 => 1202437846/10000000000000000000000 | 2 => 16649425301/10000000000000000000000 | 3 => 152273377570/10000000000000000000000 | 4 => 1212871710653/10000000000000000000000 | 5 => 9085826449424/10000000000000000000000 | 6 => 65954321637546/10000000000000000000000 | 7 => 470488985482939/10000000000000000000000 | 8 => 3322661274604330/10000000000000000000000 | 9 => 23326501712394478/10000000000000000000000 | _ => 163201101641730983/10000000000000000000000 end.
Definition t_rr (k : nat) : R := match k with | 0 => 0 | 1 => 28047888002/10000000000000000000000 | 2 => 512209469861/10000000000000000000000 | 3 => 4955092420795/10000000000000000000000 | 4 => 40406879985891/10000000000000000000000 | 5 => 306327941360420/10000000000000000000000 | 6 => 2238206789408826/10000000000000000000000 | 7 => 16025933986511660/10000000000000000000000 | 8 => 113424170205842466/10000000000000000000000 | 9 => 797308065722798607/10000000000000000000000 | _ => 5582082031720621230/10000000000000000000000 end.
Definition t_tau (k : nat) : R := match k with | 0 => 6000000001/10000000000000000000000 | 1 => 37319474402/10000000000000000000000 | 2 => 76382760633/10000000000000000000000 | 3 => 148505026784/10000000000000000000000 | 4 => 361189066762/10000000000000000000000 | 5 => 1171173698511/10000000000000000000000 | 6 => 4520811737330/10000000000000000000000 | 7 => 18699209868338/10000000000000000000000 | 8 => 80084175395593/10000000000000000000000 | 9 => 394627051673527/10000000000000000000000 | _ => 4308479069244518/10000000000000000000000 end.
Lemma lstate_weaken n k c rho d kap rr tau d' kap' rr' tau' p r : d <= d' -> kap <= kap' -> rr <= rr' -> tau <= tau' -> lstate n k c rho d kap rr tau p r -> lstate n k c rho d' kap' rr' tau' p r.
Proof.
  intros H1 H2 H3 H4 [Hc Ht Hin He Ho Hj]. constructor; auto; try lra.
  - intros i Hi D. destruct (He i Hi D). split; [|lra]. eapply Rle_trans; [eassumption|]. apply Rmult_le_compat_r; lra.
  - intros i Hi D. specialize (Ho i Hi D). lra.
  - intros i Hi D. eapply Rle_trans; [apply Hj; assumption|]. apply Rmult_le_compat_r; lra.
Qed.
Section Table.
Variables v w g e0 : R.
Hypothesis Hv : 0 <= v <= 12/100000000000000000.
Hypothesis Hw : 0 <= w <= 1/1000000000000000000000000000000.
Hypothesis Hg : 0 <= g <= 12/1000000000000000.
Hypothesis He0 : 0 <= e0 <= 1/1000000000000000.
Lemma table_caps k : (k <= 9)%nat -> (0 <= t_d k <= 1/1000000) /\ (0 <= t_kap k <= 25/10000000) /\ (0 <= t_rr k <= 1/1000) /\ (0 <= t_tau k <= 1/1000).
Proof. intros Hk. do 10 (destruct k as [|k]; [unfold t_d, t_kap, t_rr, t_tau; repeat split; lra|]). lia. Qed.
Definition n_rr1 k := rr1 v w g e0 (t_d k) (t_kap k) (t_rr k) (t_tau k).
Lemma table_rr1 k : (k <= 9)%nat -> 0 <= n_rr1 k <= t_rr (S k).
Proof. intros Hk. do 10 (destruct k as [|k]; [unfold n_rr1, rr1, etab, serr, eps, t_d, t_kap, t_rr, t_tau; split; lra|]). lia. Qed.
Lemma table_rr_cap k : (k <= 9)%nat -> t_rr (S k) <= 1/1000.
Proof. intros Hk. do 10 (destruct k as [|k]; [unfold t_rr; lra|]). lia. Qed.
Lemma table_next k : (k <= 9)%nat -> 
  d1 v w g e0 (t_d k) (t_kap k) (t_rr k) (t_tau k) <= t_d (S k) /\ kap1 v w g e0 (t_d k) (t_kap k) (t_rr k) (t_tau k) <= t_kap (S k) /\ tau1 v w g e0 (t_d k) (t_kap k) (t_rr k) (t_tau k) <= t_tau (S k) /\
  chib v w g e0 (t_d k) (t_kap k) (t_rr k) (t_tau k) + 202 * etab v w g e0 (t_d k) (t_kap k) + 200 * t_tau k <= 3/10000.
Proof.
  intros Hk. pose proof (table_rr1 Hk) as R1. assert (R2 : n_rr1 k * n_rr1 k <= t_rr (S k) * t_rr (S k)) by (apply Rmult_le_compat; lra).
  unfold kap1, d1, tau1, chib. fold (n_rr1 k). set (x := n_rr1 k * n_rr1 k) in *. set (y := n_rr1 k) in *. clearbody x y.
  do 10 (destruct k as [|k]; [unfold etab, serr, eps, t_d, t_kap, t_rr, t_tau in *; repeat split; lra|]). lia.
Qed.
End Table.
