(** PropsRandomFill: C98, what the random fill task leaves in a vector. *)
From Coq Require Import Reals Lra Lia ZArith Bool.
From Coq Require Import Floats.SpecFloat.
From Flocq Require Import Core Operations BinarySingleNaN Relative.
From Verif Require Import Base Index Outcome Sched Async Arith Launch Vector PartitionSpec VectorFacts LaunchFacts Builder BuilderFacts Exec Float PropsVector RandomFill.
Set Implicit Arguments.
Local Open Scope R_scope.

(** ** Specification *)

(** float or double *)
Definition entry_format (p e : Z) : Prop := (p = 24 /\ e = 128)%Z \/ (p = 53 /\ e = 1024)%Z.
(** the integer that the first [m] words make up, least significant first, and the number of such integers *)
Fixpoint integer_of (m : nat) (next : nat -> Z) : Z :=
  match m with O => 0 | S m' => next O + 2 ^ 32 * integer_of m' (fun i => next (S i)) end.
Definition words_used (p : Z) : nat := if (p =? 24)%Z then 1 else 2.

(** ** Facts *)
Section Format.
Variables p e : Z.
Hypothesis Hp : (24 <= p <= 53)%Z.
Hypothesis He : (128 <= e)%Z.
Let Hp0 : (0 < p)%Z. Proof. lia. Qed.
Let Hpe : (p < e)%Z. Proof. lia. Qed.
Notation rnd := (round radix2 (SpecFloat.fexp p e) ZnearestE).
Local Instance prec_pos : FLX.Prec_gt_0 p := Hp0.
Local Instance fexp_ok : Valid_exp (SpecFloat.fexp p e) := fexp_correct p e Hp0.
Notation fmt := (generic_format radix2 (SpecFloat.fexp p e)).

Lemma big t : Rabs t <= bpow radix2 100 -> Rabs t <= largest e.
Proof. intros H. unfold largest. rewrite powerRZ_bpow. apply Rle_trans with (1 := H). apply bpow_le. lia. Qed.

Lemma fmt_scale x n : fmt x -> x = 0 \/ 1 <= Rabs x -> (-80 <= n <= 80)%Z -> fmt (x * bpow radix2 n).
Proof.
  intros F [->|H] Hn; [rewrite Rmult_0_l; apply generic_format_0|].
  assert (X : x <> 0) by (intros ->; rewrite Rabs_R0 in H; lra).
  assert (M : (1 <= mag radix2 x)%Z) by (apply mag_ge_bpow; exact H).
  assert (C : cexp radix2 (SpecFloat.fexp p e) (x * bpow radix2 n) = (cexp radix2 (SpecFloat.fexp p e) x + n)%Z).
  { unfold cexp. rewrite mag_mult_bpow by exact X. rewrite fexp_FLT. unfold FLT_exp. lia. }
  unfold generic_format, scaled_mantissa in *. rewrite C. replace (x * bpow radix2 n * bpow radix2 (- (cexp radix2 (SpecFloat.fexp p e) x + n)))
    with (x * bpow radix2 (- cexp radix2 (SpecFloat.fexp p e) x)).
  2:{ rewrite Rmult_assoc, <- bpow_plus. do 2 f_equal. lia. }
  rewrite F at 1. unfold F2R. cbn [Fnum Fexp]. rewrite Rmult_assoc, <- bpow_plus. reflexivity.
Qed.
Lemma fmt_int z : (0 <= z <= 2 ^ p)%Z -> fmt (IZR z).
Proof.
  intros H. destruct (Z.eq_dec z (2 ^ p)) as [->|E].
  - change 2%Z with (radix_val radix2). rewrite IZR_Zpower by lia. apply generic_format_bpow. rewrite fexp_FLT. unfold FLT_exp. lia.
  - rewrite fexp_FLT. apply generic_format_FLT. exists (Float radix2 z 0); [unfold F2R; cbn; ring|cbn [Fnum radix_val radix2]; lia|cbn [Fexp]; lia].
Qed.
Lemma rnd_int_range (z N : Z) : (0 <= N <= 80)%Z -> (0 <= z <= 2 ^ N)%Z -> 0 <= rnd (IZR z) <= bpow radix2 N /\ (rnd (IZR z) = 0 \/ 1 <= rnd (IZR z)).
Proof.
  intros HN H. assert (B : IZR (2 ^ N) = bpow radix2 N) by (rewrite <- IZR_Zpower by lia; reflexivity).
  assert (L : 0 <= IZR z <= bpow radix2 N) by (rewrite <- B; split; apply IZR_le; lia).
  split; [split|].
  - rewrite <- (round_0 radix2 (SpecFloat.fexp p e) ZnearestE). apply round_le; [exact fexp_ok|apply valid_rnd_N|apply L].
  - apply round_le_generic; [exact fexp_ok|apply valid_rnd_N| |apply L]. apply generic_format_bpow. rewrite fexp_FLT. unfold FLT_exp. lia.
  - destruct (Z.eq_dec z 0) as [->|Z0]; [left; apply round_0; apply valid_rnd_N|right].
    apply round_ge_generic; [exact fexp_ok|apply valid_rnd_N| |apply IZR_le; lia].
    apply (@fmt_int 1). assert (0 < 2 ^ p)%Z by (apply Z.pow_pos_nonneg; lia). lia.
Qed.

Definition holds_real (x : spec_float) (r : R) : Prop := is_float p e x /\ is_number x /\ fvalue x = r.
Lemma hr_add x y a b c : holds_real x a -> holds_real y b -> Rabs (a + b) <= bpow radix2 100 -> rnd (a + b) = c -> holds_real (SFadd p e x y) c.
Proof.
  intros (F1 & N1 & V1) (F2 & N2 & V2) B E. assert (N : is_number (SFadd p e x y)).
  { apply add_number; auto. rewrite V1, V2. apply big, B. }
  split; [apply add_float; auto|]. split; [exact N|]. destruct (add_value Hp0 Hpe F1 F2 N) as (_ & _ & ->). rewrite V1, V2. exact E.
Qed.
Lemma hr_sub x y a b c : holds_real x a -> holds_real y b -> Rabs (a - b) <= bpow radix2 100 -> rnd (a - b) = c -> holds_real (SFsub p e x y) c.
Proof.
  intros (F1 & N1 & V1) (F2 & N2 & V2) B E. assert (N : is_number (SFsub p e x y)).
  { apply sub_number; auto. rewrite V1, V2. apply big, B. }
  split; [apply sub_float; auto|]. split; [exact N|]. destruct (sub_value Hp0 Hpe F1 F2 N) as (_ & _ & ->). rewrite V1, V2. exact E.
Qed.
Lemma hr_mul x y a b c : holds_real x a -> holds_real y b -> Rabs (a * b) <= bpow radix2 100 -> rnd (a * b) = c -> holds_real (SFmul p e x y) c.
Proof.
  intros (F1 & N1 & V1) (F2 & N2 & V2) B E. assert (N : is_number (SFmul p e x y)).
  { apply mul_number; auto. rewrite V1, V2. apply big, B. }
  split; [apply mul_float; auto|]. split; [exact N|]. destruct (mul_value Hp0 Hpe F1 F2 N) as (_ & _ & ->). rewrite V1, V2. exact E.
Qed.
Lemma hr_div x y a b c : holds_real x a -> holds_real y b -> b <> 0 -> Rabs (a / b) <= bpow radix2 100 -> rnd (a / b) = c -> holds_real (SFdiv p e x y) c.
Proof.
  intros (F1 & N1 & V1) (F2 & N2 & V2) Z B E. assert (N : is_number (SFdiv p e x y)).
  { apply div_number; auto; rewrite ?V1, ?V2; auto. apply big, B. }
  split; [apply div_float; auto|]. split; [exact N|]. destruct (div_value Hp0 Hpe F1 F2 N2 N) as (_ & _ & ->). rewrite V1, V2. exact E.
Qed.
Lemma hr_int z : (0 <= z <= 2 ^ 64)%Z -> holds_real (SpecFloat.binary_normalize p e z 0 false) (rnd (IZR z)).
Proof.
  intros H. assert (E : F2R (Float radix2 z 0) = IZR z) by (unfold F2R; cbn; ring).
  assert (N : is_number (SpecFloat.binary_normalize p e z 0 false)).
  { apply normalize_number; auto. rewrite E. apply big. rewrite Rabs_pos_eq by (apply IZR_le; lia).
    apply Rle_trans with (bpow radix2 64); [rewrite <- IZR_Zpower by lia; apply IZR_le; cbn [radix_val radix2]; lia|apply bpow_le; lia]. }
  split; [apply normalize_float; auto|]. split; [exact N|]. rewrite normalize_value by auto. rewrite E. reflexivity.
Qed.
Lemma rnd_of x : fmt x -> rnd x = x. Proof. intros H. apply round_generic; [apply valid_rnd_N|exact H]. Qed.
Lemma hr_fmt x a : holds_real x a -> fmt a.
Proof. intros (F & _ & <-). apply float_format; auto. Qed.
Lemma hr_one : holds_real (one p e) 1.
Proof. replace 1 with (rnd (IZR 1)); [apply hr_int; lia|]. apply rnd_of, fmt_int. assert (0 < 2 ^ p)%Z by (apply Z.pow_pos_nonneg; lia). lia. Qed.
Lemma hr_zero : holds_real (S754_zero false) 0.
Proof. repeat split. Qed.
Lemma fmt_bpow n : (-100 <= n <= 80)%Z -> fmt (bpow radix2 n).
Proof. intros H. apply generic_format_bpow. rewrite fexp_FLT. unfold FLT_exp. lia. Qed.
Lemma hr_range : holds_real (engine_range p e) (bpow radix2 32).
Proof.
  assert (E : IZR (2 ^ 32) = bpow radix2 32) by (rewrite <- (IZR_Zpower radix2) by lia; reflexivity).
  rewrite <- (rnd_of (@fmt_bpow 32 ltac:(lia))), <- E. unfold engine_range. apply hr_int. split; [|apply Z.pow_le_mono_r]; lia.
Qed.

Definition sums (m : nat) : Prop := forall next, (forall i, (0 <= next i < 2 ^ 32)%Z) ->
  let '(sum, tmp) := canonical_loop p e m next (S754_zero false) (one p e) in
  holds_real sum (rnd (IZR (integer_of m next))) /\ holds_real tmp (bpow radix2 (32 * Z.of_nat m)).
Lemma pow_abs n x : 0 <= x <= bpow radix2 n -> (n <= 100)%Z -> Rabs x <= bpow radix2 100.
Proof. intros H Hn. rewrite Rabs_pos_eq by apply H. apply Rle_trans with (1 := proj2 H). apply bpow_le. exact Hn. Qed.
Lemma first_word w : (0 <= w < 2 ^ 32)%Z ->
  holds_real (SFadd p e (S754_zero false) (SFmul p e (of_word p e w) (one p e))) (rnd (IZR w)).
Proof.
  intros H. destruct (@rnd_int_range w 32 ltac:(lia) ltac:(lia)) as [R _].
  assert (Fw : fmt (rnd (IZR w))) by (apply generic_format_round; [exact fexp_ok|apply valid_rnd_N]).
  assert (M : holds_real (SFmul p e (of_word p e w) (one p e)) (rnd (IZR w))).
  { eapply hr_mul; [apply hr_int; lia|apply hr_one| |]; rewrite Rmult_1_r; [eapply pow_abs; [exact R|lia]|apply rnd_of, Fw]. }
  eapply hr_add; [apply hr_zero|exact M| |]; rewrite Rplus_0_l; [eapply pow_abs; [exact R|lia]|apply rnd_of, Fw].
Qed.
Lemma first_tmp : holds_real (SFmul p e (one p e) (engine_range p e)) (bpow radix2 32).
Proof.
  eapply hr_mul; [apply hr_one|apply hr_range| |]; rewrite Rmult_1_l; [eapply pow_abs; [split; [apply bpow_ge_0|apply Rle_refl]|lia]|apply rnd_of, fmt_bpow; lia].
Qed.
Lemma sums_1 : sums 1.
Proof.
  intros next H. cbn [canonical_loop integer_of]. rewrite Z.mul_0_r, Z.add_0_r. split; [apply first_word, H|exact first_tmp].
Qed.
Lemma sums_2 : p = 53%Z -> sums 2.
Proof.
  intros P next H. cbn [canonical_loop integer_of]. rewrite Z.mul_0_r, Z.add_0_r.
  pose proof (H 0%nat) as H0. pose proof (H 1%nat) as H1. set (w0 := next 0%nat) in *. set (w1 := next 1%nat) in *.
  assert (X : forall w, (0 <= w < 2 ^ 32)%Z -> rnd (IZR w) = IZR w) by (intros w Hw; apply rnd_of, fmt_int; rewrite P; lia).
  assert (B32 : IZR (2 ^ 32) = bpow radix2 32) by (rewrite <- (IZR_Zpower radix2) by lia; reflexivity).
  assert (B64 : IZR (2 ^ 64) = bpow radix2 64) by (rewrite <- (IZR_Zpower radix2) by lia; reflexivity).
  assert (M : holds_real (SFmul p e (of_word p e w1) (SFmul p e (one p e) (engine_range p e))) (IZR w1 * bpow radix2 32)).
  { eapply hr_mul; [apply hr_int; lia|apply first_tmp| |]; rewrite X by lia.
    - rewrite <- B32, <- mult_IZR. eapply (@pow_abs 64); [rewrite <- B64; split; apply IZR_le; lia|lia].
    - apply rnd_of. apply fmt_scale; [apply fmt_int; rewrite P; lia| |lia].
      destruct (Z.eq_dec w1 0) as [->|N]; [left; reflexivity|right]. rewrite Rabs_pos_eq by (apply IZR_le; lia). apply IZR_le. lia. }
  split.
  - eapply hr_add; [apply (first_word H0)|exact M| |]; rewrite X by lia; rewrite <- B32, <- mult_IZR, <- plus_IZR.
    + eapply (@pow_abs 64); [rewrite <- B64; split; apply IZR_le; lia|lia].
    + do 2 f_equal. lia.
  - eapply hr_mul; [apply first_tmp|apply hr_range| |]; rewrite <- bpow_plus.
    + eapply pow_abs; [split; [apply bpow_ge_0|apply Rle_refl]|lia].
    + apply rnd_of, fmt_bpow. lia.
Qed.

Lemma le_float x y a b : holds_real x a -> holds_real y b -> SFleb x y = true <-> a <= b.
Proof.
  intros (Fx & Nx & Vx) (Fy & Ny & Vy). destruct (lift_float Fx) as [bx ->]. destruct (lift_float Fy) as [by_ ->].
  rewrite fvalue_B2R in Vx, Vy. apply number_B2SF in Nx. apply number_B2SF in Ny. subst a b.
  pose proof (@Bcompare_correct p e bx by_ Nx Ny) as C. unfold Bcompare in C. unfold SFleb. rewrite C.
  case Rcompare_spec; intros H; split; intros L; try discriminate; try reflexivity; lra.
Qed.
Variable m : nat.
Hypothesis Hm : (1 <= m <= 2)%nat.
Hypothesis Sums : sums m.
Hypothesis Words : words_per_number p = m.
Hypothesis Below : is_float p e (below_one p).
Variable next : nat -> Z.
Hypothesis Next : forall i, (0 <= next i < 2 ^ 32)%Z.

Lemma integer_range k : forall f : nat -> Z, (forall i, (0 <= f i < 2 ^ 32)%Z) -> (0 <= integer_of k f < 2 ^ (32 * Z.of_nat k))%Z.
Proof.
  induction k as [|k IH]; intros f H; cbn [integer_of]; [change (32 * Z.of_nat 0)%Z with 0%Z; lia|].
  specialize (IH (fun i => f (S i)) (fun i => H (S i))). specialize (H O).
  replace (32 * Z.of_nat (S k))%Z with (32 + 32 * Z.of_nat k)%Z by lia. rewrite Z.pow_add_r by lia. nia.
Qed.
Let N := (32 * Z.of_nat m)%Z.
Let W := integer_of m next.
Let q := rnd (IZR W) * bpow radix2 (- N).
Lemma W_range : (0 <= W < 2 ^ N)%Z. Proof. apply integer_range, Next. Qed.
Lemma q_range : 0 <= q <= 1.
Proof.
  destruct (@rnd_int_range W N ltac:(lia) ltac:(pose proof W_range; lia)) as [R _]. unfold q.
  pose proof (bpow_gt_0 radix2 (- N)) as B. assert (E : bpow radix2 N * bpow radix2 (- N) = 1) by (rewrite <- bpow_plus; replace (N + - N)%Z with 0%Z by lia; reflexivity).
  split; [nra|]. rewrite <- E. apply Rmult_le_compat_r; lra.
Qed.
Lemma q_fmt : fmt q.
Proof.
  destruct (@rnd_int_range W N ltac:(lia) ltac:(pose proof W_range; lia)) as [R [Z|O]]; apply fmt_scale; try lia;
    try (apply generic_format_round; [exact fexp_ok|apply valid_rnd_N]); [left; exact Z|right]. rewrite Rabs_pos_eq; lra.
Qed.
Lemma below_value : holds_real (below_one p) (1 - bpow radix2 (- p)).
Proof.
  split; [exact Below|]. split; [exact I|]. unfold below_one. rewrite fvalue_SF2R. cbn [SF2R]. cbn [cond_Zopp]. rewrite Z2Pos.id.
  2:{ assert (1 < 2 ^ p)%Z by (apply Z.pow_gt_1; lia). lia. }
  unfold F2R. cbn [Fnum Fexp]. rewrite minus_IZR. change 2%Z with (radix_val radix2) at 1. rewrite IZR_Zpower by lia.
  rewrite Rmult_minus_distr_r, <- bpow_plus. replace (p + - p)%Z with 0%Z by lia. cbn [bpow]. ring.
Qed.
Lemma ulp_range : 0 < bpow radix2 (- p) <= / 2.
Proof. split; [apply bpow_gt_0|]. change (/ 2) with (bpow radix2 (-1)). apply bpow_le. lia. Qed.
(** numbers of the format below one are at most 1 - 2^-p *)
Lemma below_fmt x : fmt x -> 0 <= x < 1 -> x <= 1 - bpow radix2 (- p).
Proof.
  intros F [H0 H]. destruct (Req_dec x 0) as [->|X]; [pose proof ulp_range; lra|].
  assert (M : (mag radix2 x <= 0)%Z) by (apply mag_le_bpow; [exact X|rewrite Rabs_pos_eq by lra; exact H]).
  assert (P : pred radix2 (SpecFloat.fexp p e) 1 = 1 - bpow radix2 (- p)).
  { replace 1 with (bpow radix2 0) by reflexivity. rewrite pred_bpow by exact fexp_ok. f_equal. f_equal. rewrite fexp_FLT. unfold FLT_exp. lia. }
  rewrite <- P. apply pred_ge_gt; [exact fexp_ok|exact F| |exact H]. replace 1 with (bpow radix2 0) by reflexivity. apply fmt_bpow. lia.
Qed.
Lemma canonical_value : holds_real (canonical p e next) (Rmin (1 - bpow radix2 (- p)) q).
Proof.
  unfold canonical. rewrite Words. pose proof (Sums next Next) as SS. destruct (canonical_loop p e m next (S754_zero false) (one p e)) as [sum tmp].
  destruct SS as [SS T]. fold W in SS. fold N in T. pose proof q_range as Q. pose proof ulp_range as U.
  assert (D : holds_real (SFdiv p e sum tmp) q).
  { assert (E : rnd (IZR W) / bpow radix2 N = q) by (unfold q, Rdiv; rewrite <- bpow_opp; reflexivity).
    eapply hr_div; [exact SS|exact T|apply Rgt_not_eq, bpow_gt_0| |]; rewrite E; [|apply rnd_of, q_fmt].
    eapply (@pow_abs 0); [exact Q|lia]. }
  destruct (SFleb (one p e) (SFdiv p e sum tmp)) eqn:L.
  - apply (le_float hr_one D) in L. replace q with 1 by lra. rewrite Rmin_left by lra. exact below_value.
  - assert (q < 1). { destruct (Rlt_or_le q 1) as [|G]; [assumption|]. apply (le_float hr_one D) in G. congruence. }
    rewrite Rmin_right; [exact D|]. apply below_fmt; [apply q_fmt|lra].
Qed.
Lemma uniform_value : holds_real (uniform01 p e next) (Rmin (1 - bpow radix2 (- p)) q).
Proof.
  pose proof canonical_value as C. pose proof (hr_fmt C) as F. pose proof q_range as Q. pose proof ulp_range as U.
  assert (R : 0 <= Rmin (1 - bpow radix2 (- p)) q <= bpow radix2 0).
  { split; [apply Rmin_glb; lra|]. apply Rle_trans with (1 := Rmin_r _ _). cbn. lra. }
  unfold uniform01. eapply hr_add; [eapply hr_mul; [exact C|eapply hr_sub; [apply hr_one|apply hr_zero| |]| |]|apply hr_zero| |];
    rewrite ?Rminus_0_r, ?Rmult_1_r, ?Rplus_0_r.
  - eapply (@pow_abs 0); [cbn; lra|lia].
  - apply rnd_of. apply (@fmt_bpow 0). lia.
  - eapply (@pow_abs 0); [exact R|lia].
  - apply rnd_of, F.
  - eapply (@pow_abs 0); [exact R|lia].
  - apply rnd_of, F.
Qed.
Lemma q_error : Rabs (q - IZR W / IZR (2 ^ N)) <= bpow radix2 (- p).
Proof.
  pose proof W_range as R. assert (BN : IZR (2 ^ N) = bpow radix2 N) by (rewrite <- (IZR_Zpower radix2) by lia; reflexivity).
  assert (E : q - IZR W / IZR (2 ^ N) = (rnd (IZR W) - IZR W) * bpow radix2 (- N)) by (rewrite BN; unfold q; rewrite bpow_opp; unfold Rdiv; ring).
  rewrite E. destruct (Z.eq_dec W 0) as [->|W0].
  - rewrite round_0 by apply valid_rnd_N. rewrite Rminus_0_r, Rmult_0_l, Rabs_R0. apply bpow_ge_0.
  - rewrite Rabs_mult, (Rabs_pos_eq (bpow radix2 (- N))) by apply bpow_ge_0.
    assert (H : Rabs (rnd (IZR W) - IZR W) <= bpow radix2 (- p) * Rabs (IZR W)).
    { replace (bpow radix2 (- p)) with (/ 2 * bpow radix2 (- p + 1)) by (rewrite bpow_plus; cbn; field).
      apply (@relative_error_N_FLT radix2 (3 - e - p) p ltac:(lia) (fun x => negb (Z.even x))).
      rewrite Rabs_pos_eq by (apply IZR_le; lia). apply Rle_trans with (bpow radix2 0); [apply bpow_le; lia|apply IZR_le; lia]. }
    rewrite (Rabs_pos_eq (IZR W)) in H by (apply IZR_le; lia).
    apply Rle_trans with (bpow radix2 (- p) * IZR W * bpow radix2 (- N)); [apply Rmult_le_compat_r; [apply bpow_ge_0|exact H]|].
    rewrite Rmult_assoc. rewrite <- (Rmult_1_r (bpow radix2 (- p))) at 2. apply Rmult_le_compat_l; [apply bpow_ge_0|].
    replace 1 with (bpow radix2 N * bpow radix2 (- N)) by (rewrite <- bpow_plus; replace (N + - N)%Z with 0%Z by lia; reflexivity).
    apply Rmult_le_compat_r; [apply bpow_ge_0|]. rewrite <- BN. apply IZR_le. lia.
Qed.
End Format.

Lemma uniform_spec p e next : entry_format p e -> (forall i, (0 <= next i < 2 ^ 32)%Z) ->
  holds_real p e (uniform01 p e next)
    (Rmin (1 - bpow radix2 (- p)) (round radix2 (SpecFloat.fexp p e) ZnearestE (IZR (integer_of (words_used p) next)) * bpow radix2 (- (32 * Z.of_nat (words_used p)))))
  /\ 0 <= fvalue (uniform01 p e next) < 1 /\
  Rabs (fvalue (uniform01 p e next) - IZR (integer_of (words_used p) next) / IZR (2 ^ (32 * Z.of_nat (words_used p)))) <= bpow radix2 (- p).
Proof.
  intros F H. assert (Hp : (24 <= p <= 53)%Z) by (destruct F as [[-> ->]|[-> ->]]; lia). assert (He : (128 <= e)%Z) by (destruct F as [[-> ->]|[-> ->]]; lia).
  assert (Hm : (1 <= words_used p <= 2)%nat) by (unfold words_used; destruct (p =? 24)%Z; lia).
  assert (Sums : sums p e (words_used p)).
  { destruct F as [[P _]|[P _]]; unfold words_used; rewrite P; cbn [Z.eqb Pos.eqb]; rewrite <- P; [apply sums_1|apply sums_2]; auto. }
  assert (Wd : words_per_number p = words_used p) by (destruct F as [[-> _]|[-> _]]; reflexivity).
  assert (B : is_float p e (below_one p)) by (destruct F as [[-> ->]|[-> ->]]; vm_compute; reflexivity).
  pose proof (uniform_value Hp He Hm Sums Wd B next H) as U. split; [exact U|].
  pose proof (q_error Hp He Hm Wd next H) as Q. pose proof (q_range Hp He Hm Wd next H) as R. pose proof (ulp_range Hp Hm Wd next) as L. destruct U as (_ & _ & ->).
  set (q := round radix2 _ _ _ * bpow radix2 _) in *. pose proof (W_range p Hm Wd next H) as WR. set (W := integer_of _ _) in *. set (N := (32 * Z.of_nat (words_used p))%Z) in *.
  assert (W1 : IZR W / IZR (2 ^ N) < 1).
  { assert (0 < IZR (2 ^ N)) by (apply (IZR_lt 0); lia). apply (Rmult_lt_reg_r (IZR (2 ^ N))); [assumption|]. unfold Rdiv. rewrite Rmult_assoc, Rinv_l, Rmult_1_l by lra. rewrite Rmult_1_r. apply IZR_lt. lia. }
  split; [split; [apply Rmin_glb; lra|apply Rle_lt_trans with (1 := Rmin_l _ _); lra]|].
  unfold Rmin. destruct (Rle_dec (1 - bpow radix2 (- p)) q) as [G|G]; [|exact Q].
  apply Rabs_le. apply Rabs_def2b in Q || apply Rabs_le_inv in Q. lra.
Qed.

(** ** The vector *)
Section Vec.
Variables p e : Z.
Variable v : pvec.
Variable lg : legion.
Notation m := (words_per_number p).
Fixpoint of_piece (words : nat -> Z) (i : nat) (piece : list point) (q : point) : nat -> Z :=
  match piece with
  | [] => fun _ => 0%Z
  | r :: piece' => if point_eq_dec q r then fun k => words (i * m + k)%nat else of_piece words (S i) piece' q
  end.
Fixpoint of_pieces (words : nat -> nat -> Z) (c : nat) (ps : list (list point)) (q : point) : nat -> Z :=
  match ps with
  | [] => fun _ => 0%Z
  | piece :: ps' => if in_dec point_eq_dec q piece then of_piece (words c) 0 piece q else of_pieces words (S c) ps' q
  end.
Lemma of_piece_at words piece : NoDup piece -> forall i j q, nth_error piece j = Some q ->
  of_piece words i piece q = fun k => words ((i + j) * m + k)%nat.
Proof.
  induction 1 as [|r piece Hr Hn IH]; intros i j q H; [destruct j; discriminate|]. cbn [of_piece]. destruct j as [|j]; cbn [nth_error] in H.
  - injection H as ->. destruct (point_eq_dec q q) as [_|]; [|contradiction]. rewrite Nat.add_0_r. reflexivity.
  - destruct (point_eq_dec q r) as [->|_]; [exfalso; apply Hr; eapply nth_error_In; exact H|]. rewrite (IH _ _ _ H).
    replace (S i + j)%nat with (i + S j)%nat by lia. reflexivity.
Qed.
Lemma of_pieces_at words ps : NoDup (concat ps) -> forall c d piece i q, nth_error ps d = Some piece -> nth_error piece i = Some q ->
  of_pieces words c ps q = fun k => words (c + d)%nat (i * m + k)%nat.
Proof.
  induction ps as [|x ps IH]; intros Hn c d piece i q H Hi; [destruct d; discriminate|]. cbn [of_pieces concat] in *. destruct d as [|d]; cbn [nth_error] in H.
  - injection H as ->. destruct (in_dec point_eq_dec q piece) as [_|N]; [|exfalso; apply N; eapply nth_error_In; exact Hi].
    rewrite (of_piece_at (words c) (NoDup_app_l _ _ Hn) _ _ Hi), Nat.add_0_r. reflexivity.
  - destruct (in_dec point_eq_dec q x) as [N|_].
    + exfalso. apply (NoDup_app_disj _ _ _ Hn N). apply in_concat. exists piece. split; eapply nth_error_In; eassumption.
    + rewrite (IH (NoDup_app_r _ _ Hn) (S c) d piece i q H Hi). replace (S c + d)%nat with (c + S d)%nat by lia. reflexivity.
Qed.
Definition fill_at (words : nat -> nat -> Z) (q : point) : step loc spec_float :=
  mk_step (at_point v q) [] (fun _ => uniform01 p e (of_pieces words 0 (pieces lg v) q)).
Lemma random_steps_map words piece : NoDup piece -> forall i,
  random_steps p e v words i piece = map (fun q => mk_step (at_point v q) [] (fun _ => uniform01 p e (of_piece words i piece q))) piece.
Proof.
  induction 1 as [|r piece Hr Hn IH]; intros i; [reflexivity|]. cbn [random_steps map of_piece]. destruct (point_eq_dec r r) as [_|]; [|contradiction]. f_equal.
  rewrite IH. apply map_ext_in. intros q Hq. destruct (point_eq_dec q r) as [->|_]; [contradiction|reflexivity].
Qed.
Lemma random_tasks_map words ps : NoDup (concat ps) -> forall c,
  random_tasks p e v words c ps = map (map (fun q => mk_step (at_point v q) [] (fun _ => uniform01 p e (of_pieces words c ps q)))) ps.
Proof.
  induction ps as [|x ps IH]; intros Hn c; [reflexivity|]. cbn [random_tasks map of_pieces concat] in *. f_equal.
  - rewrite random_steps_map by exact (NoDup_app_l _ _ Hn). apply map_ext_in. intros q Hq. destruct (in_dec point_eq_dec q x) as [_|]; [reflexivity|contradiction].
  - rewrite IH by exact (NoDup_app_r _ _ Hn). apply map_ext_in. intros piece Hp. apply map_ext_in. intros q Hq.
    destruct (in_dec point_eq_dec q x) as [N|_]; [|reflexivity]. exfalso. apply (NoDup_app_disj _ _ _ Hn N). apply in_concat. exists piece. auto.
Qed.
End Vec.

(** ** C98 *)
Theorem C98_unit : forall p e next, entry_format p e -> (forall i, (0 <= next i < 2 ^ 32)%Z) ->
  let x := uniform01 p e next in let m := words_used p in
  is_float p e x /\ is_number x /\ 0 <= fvalue x < 1 /\
  Rabs (fvalue x - IZR (integer_of m next) / IZR (2 ^ (32 * Z.of_nat m))) <= powerRZ 2 (- p).
Proof.
  intros p e next F H x m. destruct (uniform_spec next F H) as [(U1 & U2 & _) [U3 U4]]. rewrite powerRZ_bpow. repeat (split; [assumption|]). assumption.
Qed.

Theorem C98_random_fill : forall p e lg v words, entry_format p e -> (forall c k, (0 <= words c k < 2 ^ 32)%Z) -> legion_ok lg -> constructed lg v ->
  exists ln, random_fill p e lg v words = Ok ln /\ good_launch ln /\
  (exists s s', launches_end [ln] s s') /\
  forall s s', launches_end [ln] s s' ->
    (* point number i of piece c holds the number made from words i*m, ..., i*m+m-1 of the piece's engine *)
    (forall c piece i q, nth_error (pieces lg v) c = Some piece -> nth_error piece i = Some q ->
       let m := words_used p in let x := s' (at_point v q) in
       is_float p e x /\ is_number x /\ 0 <= fvalue x < 1 /\
       Rabs (fvalue x - IZR (integer_of m (fun k => words c (i * m + k)%nat)) / IZR (2 ^ (32 * Z.of_nat m))) <= powerRZ 2 (- p)) /\
    (* every entry of the vector is written, nothing else is, and the result does not depend on the schedule *)
    (forall q, In q (is_points lg (pv_space v)) -> is_number (s' (at_point v q)) /\ 0 <= fvalue (s' (at_point v q)) < 1) /\
    (forall l, (forall q, In q (is_points lg (pv_space v)) -> l <> at_point v q) -> s' l = s l) /\
    (forall s1 s2, launches_end [ln] s1 s2 -> forall q, In q (is_points lg (pv_space v)) -> s2 (at_point v q) = s' (at_point v q)).
Proof.
  intros p e lg v words F H Hlg Hc. destruct (constructed_pieces Hlg Hc) as [Hn Hin].
  assert (Wd : words_per_number p = words_used p) by (destruct F as [[-> _]|[-> _]]; reflexivity).
  pose (f := fill_at p e v lg words).
  exists (mk_launch (pointwise lg v f) [get_requirement lg v WRITE_DISCARD] [] None [] []).
  assert (G : good_launch (mk_launch (pointwise lg v f) [get_requirement lg v WRITE_DISCARD] [] None [] [])).
  { apply (pointwise_good Hlg); [exact Hc|reflexivity|intros a b _ []| |intros a l []].
    eexists. split; [left; reflexivity|]. repeat split. }
  split; [|split; [exact G|split]].
  - unfold random_fill. rewrite (random_tasks_map p e v words _ Hn 0). reflexivity.
  - exists (fun _ => S754_zero false). apply some_end.
  - assert (V : forall s s', launches_end [mk_launch (pointwise lg v f) [get_requirement lg v WRITE_DISCARD] [] None [] []] s s' ->
      updates_vector lg v (fun q => uniform01 p e (of_pieces p words 0 (pieces lg v) q)) s s').
    { intros s s' E. assert (Hg : Forall good_launch [mk_launch (pointwise lg v f) [get_requirement lg v WRITE_DISCARD] [] None [] []]) by (constructor; [exact G|constructor]).
      assert (E2 := launches_end_effect Hg E). destruct (@pointwise_updates _ lg Hlg v f _ Hc (fun _ => eq_refl) (fun a b _ C => match C with end) (interleave_concat _) s) as [U1 U2].
      split; [intros q Hq|intros l Hl]; rewrite E2, effect_one; [apply U1, Hq|apply U2, Hl]. }
    assert (Pt : forall c piece i q, nth_error (pieces lg v) c = Some piece -> nth_error piece i = Some q -> In q (is_points lg (pv_space v))).
    { intros c piece i q A B. apply Hin, in_concat. exists piece. split; eapply nth_error_In; eassumption. }
    assert (Ix : forall q, In q (is_points lg (pv_space v)) -> exists c piece i, nth_error (pieces lg v) c = Some piece /\ nth_error piece i = Some q).
    { intros q Hq. apply Hin, in_concat in Hq. destruct Hq as [piece [A B]]. apply In_nth_error in A. apply In_nth_error in B. destruct A as [c A]. destruct B as [i B]. exists c, piece, i. auto. }
    intros s s' E. destruct (V s s' E) as [U1 U2].
    assert (Main : forall c piece i q, nth_error (pieces lg v) c = Some piece -> nth_error piece i = Some q ->
       let m := words_used p in let x := s' (at_point v q) in
       is_float p e x /\ is_number x /\ 0 <= fvalue x < 1 /\
       Rabs (fvalue x - IZR (integer_of m (fun k => words c (i * m + k)%nat)) / IZR (2 ^ (32 * Z.of_nat m))) <= powerRZ 2 (- p)).
    { intros c piece i q A B m x. subst x. rewrite (U1 q (Pt _ _ _ _ A B)). rewrite (@of_pieces_at p words _ Hn 0%nat c piece i q A B), Wd. apply C98_unit; [exact F|intros; apply H]. }
    split; [exact Main|]. split; [|split; [exact U2|]].
    + intros q Hq. destruct (Ix q Hq) as (c & piece & i & A & B). destruct (Main c piece i q A B) as (_ & M1 & M2 & _). auto.
    + intros s1 s2 E1 q Hq. destruct (V s1 s2 E1) as [W1 _]. rewrite (W1 q Hq), (U1 q Hq). reflexivity.
Qed.

(** ** Concrete cases *)
(** 2^32-1 divided by 2^32 rounds to one in single precision, and is replaced by 1 - 2^-24; in double precision it does not need to be;
    a word of all zeros gives zero. *)
Example C98_unit_example :
  SFleb (one 24 128) (SFdiv 24 128 (of_word 24 128 (2 ^ 32 - 1)) (engine_range 24 128)) = true /\
  uniform01 24 128 (fun _ => (2 ^ 32 - 1)%Z) = S754_finite false 16777215 (-24) /\
  uniform01 24 128 (fun _ => 0%Z) = S754_zero false /\
  uniform01 53 1024 (fun i => match i with O => 7 | _ => 2 ^ 31 end)%Z = S754_finite false 4503599627370496 (-53) /\
  uniform01 53 1024 (fun i => match i with O => 2 ^ 12 | _ => 2 ^ 31 end)%Z = S754_finite false 4503599627370498 (-53).
Proof. vm_compute. repeat split. Qed.
(** The six points of [lg6] by rows, filled with doubles: the middle point of the second row gets words 2 and 3 of the second engine. *)
Definition words6 (c k : nat) : Z := (Z.of_nat c * 2 ^ 31 + Z.of_nat k * 2 ^ 20)%Z.
Example C98_example : legion_ok lg6 /\ constructed lg6 y6 /\ entry_format 53 1024 /\
  (exists ln, random_fill 53 1024 lg6 y6 (fun c k => (words6 (Nat.min c 1) (Nat.min k 5))) = Ok ln /\
    run loc_dec (concat (ln_tasks ln)) (fun _ => S754_nan) (at_point y6 [1; 1]%Z) = uniform01 53 1024 (fun k => words6 1 (Nat.min (2 + k) 5)) /\
    run loc_dec (concat (ln_tasks ln)) (fun _ => S754_nan) (LVec 10 0 [7; 7]%Z) = S754_nan) /\
  (forall c k, 0 <= words6 (Nat.min c 1) (Nat.min k 5) < 2 ^ 32)%Z.
Proof.
  split; [exact lg6_ok|]. split; [exists 2%nat, 10%nat, 0%nat; reflexivity|]. split; [right; split; reflexivity|]. split.
  - eexists. split; [vm_compute; reflexivity|]. split; vm_compute; reflexivity.
  - intros c k. unfold words6. assert (Nat.min c 1 <= 1)%nat by lia. assert (Nat.min k 5 <= 5)%nat by lia. lia.
Qed.

(** The seed array that is filled from std::random_device is as large as the state of the engine. *)
Theorem C98_seed_covers_state : forall word_bytes entropy_bytes, (0 < word_bytes)%Z -> (0 < entropy_bytes)%Z ->
  (624 * word_bytes <= seed_len word_bytes entropy_bytes * entropy_bytes < 624 * word_bytes + entropy_bytes)%Z.
Proof.
  intros w n Hw Hn. unfold seed_len. pose proof (Z.div_mod (624 * w - 1) n ltac:(lia)). pose proof (Z.mod_pos_bound (624 * w - 1) n Hn). nia.
Qed.
Example C98_seed_example : seed_len 8 4 = 1248%Z /\ seed_len 4 4 = 624%Z. Proof. split; reflexivity. Qed.
