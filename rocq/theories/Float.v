(** Float: what the IEEE arithmetic of Arith.v computes, as real numbers.  [fvalue x] is the number a finite float stands for; every
    operation with a finite result had finite operands and returns the exact result up to rounding. *)
From Coq Require Import Reals Lra Lia ZArith Bool.
From Coq Require Import Floats.SpecFloat.
From Flocq Require Import Core Operations BinarySingleNaN Relative Plus_error.
From Verif Require Import Base Arith.
Set Implicit Arguments.
Local Open Scope R_scope.

(** ** Specification *)
(** a bit pattern of the format with [p] bits of precision and largest exponent [e] (Coq's valid_binary) *)
Definition is_float (p e : Z) (x : spec_float) : Prop := valid_binary p e x = true.
Definition is_number (x : spec_float) : Prop := match x with S754_zero _ | S754_finite _ _ _ => True | _ => False end.
(** the real number m * 2^e with sign s *)
Definition fvalue (x : spec_float) : R :=
  match x with S754_finite s m e => (if s then -1 else 1) * IZR (Zpos m) * powerRZ 2 e | _ => 0 end.
(** unit round-off 2^-p and half the smallest positive float *)
Definition unit_roundoff (p : Z) : R := powerRZ 2 (- p).
Definition tiny (p e : Z) : R := powerRZ 2 (2 - e - p).
(** half the overflow threshold: 2^1023 in double *)
Definition largest (e : Z) : R := powerRZ 2 (e - 1).

(** ** Facts *)
Lemma powerRZ_bpow z : powerRZ 2 z = bpow radix2 z.
Proof.
  destruct z as [|z|z]; cbn [powerRZ bpow].
  - reflexivity.
  - rewrite Zpower_pos_powerRZ. cbn. reflexivity.
  - rewrite Zpower_pos_powerRZ. cbn. reflexivity.
Qed.
Lemma fvalue_SF2R x : fvalue x = SF2R radix2 x.
Proof.
  destruct x as [s|s| |s m e]; try reflexivity. cbn [fvalue SF2R]. unfold F2R. cbn [Fnum Fexp]. rewrite powerRZ_bpow. destruct s; cbn [cond_Zopp].
  - change (Z.neg m) with (- Zpos m)%Z. rewrite opp_IZR. ring.
  - ring.
Qed.
Lemma is_number_iff x : is_number x <-> is_finite_SF x = true.
Proof. destruct x; cbn; split; intros; try tauto; try discriminate; reflexivity. Qed.

Section Format.
Variables p e : Z.
Hypothesis Hp : (0 < p)%Z.
Hypothesis He : (p < e)%Z.
Let prec_pos : FLX.Prec_gt_0 p := Hp.
Let prec_lt : Prec_lt_emax p e := He.
Local Existing Instance prec_pos.
Local Existing Instance prec_lt.
Notation rnd := (round radix2 (SpecFloat.fexp p e) ZnearestE).

Lemma round_nearest_even_equiv s m l : round_nearest_even m l = choice_mode mode_NE s m l.
Proof. case l; [reflexivity|intro c]. case c; [|reflexivity..]. cbn. unfold Round.cond_incr. now case Z.even. Qed.
Lemma binary_round_aux_equiv sx mx ex lx : SpecFloat.binary_round_aux p e sx mx ex lx = binary_round_aux p e mode_NE sx mx ex lx.
Proof.
  unfold SpecFloat.binary_round_aux, binary_round_aux. set (mrse' := shr_fexp _ _ _). case mrse'; intros mrs' e'; cbn. now rewrite (round_nearest_even_equiv sx).
Qed.
Lemma binary_round_equiv s m x : SpecFloat.binary_round p e s m x = binary_round p e mode_NE s m x.
Proof. unfold SpecFloat.binary_round, binary_round, shl_align_fexp. set (mez := shl_align _ _ _); case mez as [mz ez]. apply binary_round_aux_equiv. Qed.
Lemma normalize_equiv m x szero : SpecFloat.binary_normalize p e m x szero = B2SF (binary_normalize p e Hp He mode_NE m x szero).
Proof.
  case m as [|q|q].
  - reflexivity.
  - cbn; rewrite B2SF_SF2B; apply binary_round_equiv.
  - cbn; rewrite B2SF_SF2B; apply binary_round_equiv.
Qed.
Lemma add_equiv (x y : binary_float p e) : SFadd p e (B2SF x) (B2SF y) = B2SF (Bplus mode_NE x y).
Proof.
  destruct x as [sx|sx| |sx mx ex Bx], y as [sy|sy| |sy my ey By]; try reflexivity; try (cbn; destruct (Bool.eqb sx sy); reflexivity).
  apply normalize_equiv.
Qed.
Lemma mul_equiv (x y : binary_float p e) : SFmul p e (B2SF x) (B2SF y) = B2SF (Bmult mode_NE x y).
Proof.
  destruct x as [sx|sx| |sx mx ex Bx], y as [sy|sy| |sy my ey By]; try reflexivity.
  cbn. rewrite B2SF_SF2B. apply binary_round_aux_equiv.
Qed.
Lemma sub_equiv (x y : binary_float p e) : SFsub p e (B2SF x) (B2SF y) = B2SF (Bminus mode_NE x y).
Proof.
  destruct x as [sx|sx| |sx mx ex Bx], y as [sy|sy| |sy my ey By]; try reflexivity; try (cbn; destruct (Bool.eqb sx (negb sy)); reflexivity).
  cbn. unfold Zminus. rewrite <- cond_Zopp_negb. apply normalize_equiv.
Qed.
Lemma div_equiv (x y : binary_float p e) : SFdiv p e (B2SF x) (B2SF y) = B2SF (Bdiv mode_NE x y).
Proof.
  destruct x as [sx|sx| |sx mx ex Bx], y as [sy|sy| |sy my ey By]; try reflexivity.
  cbn. rewrite B2SF_SF2B. set (melz := SFdiv_core_binary _ _ _ _ _ _). case melz as [[mz ez] lz]. apply binary_round_aux_equiv.
Qed.
Lemma sqrt_equiv (x : binary_float p e) : SFsqrt p e (B2SF x) = B2SF (Bsqrt mode_NE x).
Proof.
  destruct x as [sx|sx| |sx mx ex Bx]; try reflexivity; try (destruct sx; reflexivity).
  destruct sx; [reflexivity|]. cbn. rewrite B2SF_SF2B. set (melz := SFsqrt_core_binary _ _ _ _). case melz as [[mz ez] lz]. apply binary_round_aux_equiv.
Qed.

Lemma lift_float x : is_float p e x -> exists b : binary_float p e, x = B2SF b.
Proof. intros H. exists (SF2B x H). symmetry. apply B2SF_SF2B. Qed.
Lemma float_B2SF (b : binary_float p e) : is_float p e (B2SF b).
Proof. apply valid_binary_B2SF. Qed.
Lemma fvalue_B2R (b : binary_float p e) : fvalue (B2SF b) = B2R b.
Proof. rewrite fvalue_SF2R. apply SF2R_B2SF. Qed.
Lemma number_B2SF (b : binary_float p e) : is_number (B2SF b) <-> is_finite b = true.
Proof. rewrite is_number_iff, is_finite_SF_B2SF. reflexivity. Qed.
Lemma overflow_not_finite (b : binary_float p e) s : B2SF b = binary_overflow p e mode_NE s -> is_finite b = false.
Proof. destruct b; cbn; intros H; try reflexivity; discriminate. Qed.
(** *** operations *)
Lemma add_float x y : is_float p e x -> is_float p e y -> is_float p e (SFadd p e x y).
Proof. intros Hx Hy. destruct (lift_float Hx) as [a ->], (lift_float Hy) as [b ->]. rewrite add_equiv. apply float_B2SF. Qed.
Lemma mul_float x y : is_float p e x -> is_float p e y -> is_float p e (SFmul p e x y).
Proof. intros Hx Hy. destruct (lift_float Hx) as [a ->], (lift_float Hy) as [b ->]. rewrite mul_equiv. apply float_B2SF. Qed.
Lemma sub_float x y : is_float p e x -> is_float p e y -> is_float p e (SFsub p e x y).
Proof. intros Hx Hy. destruct (lift_float Hx) as [a ->], (lift_float Hy) as [b ->]. rewrite sub_equiv. apply float_B2SF. Qed.
Lemma div_float x y : is_float p e x -> is_float p e y -> is_float p e (SFdiv p e x y).
Proof. intros Hx Hy. destruct (lift_float Hx) as [a ->], (lift_float Hy) as [b ->]. rewrite div_equiv. apply float_B2SF. Qed.
Lemma sqrt_float x : is_float p e x -> is_float p e (SFsqrt p e x).
Proof. intros Hx. destruct (lift_float Hx) as [a ->]. rewrite sqrt_equiv. apply float_B2SF. Qed.
Lemma normalize_float m x s : is_float p e (SpecFloat.binary_normalize p e m x s).
Proof. rewrite normalize_equiv. apply float_B2SF. Qed.
Lemma opp_float x : is_float p e x -> is_float p e (SFopp x).
Proof. destruct x; cbn; trivial. Qed.
Lemma fma_float x y z : is_float p e x -> is_float p e y -> is_float p e z -> is_float p e (sf_fma p e x y z).
Proof.
  intros Hx Hy Hz. assert (G : is_float p e (SFadd p e (SFmul p e x y) z)) by (apply add_float; [apply mul_float|]; assumption).
  assert (M : is_float p e (SFmul p e x y)) by (apply mul_float; assumption).
  destruct x, y, z; try exact G; [exact M|reflexivity|apply normalize_float].
Qed.

Lemma add_value x y : is_float p e x -> is_float p e y -> is_number (SFadd p e x y) ->
  is_number x /\ is_number y /\ fvalue (SFadd p e x y) = rnd (fvalue x + fvalue y).
Proof.
  intros Hx Hy. destruct (lift_float Hx) as [a ->], (lift_float Hy) as [b ->]. rewrite add_equiv, !number_B2SF, !fvalue_B2R. intros H.
  assert (F : is_finite a = true /\ is_finite b = true) by (destruct a as [sa|sa| |sa ma ea Ba], b as [sb|sb| |sb mb eb Bb]; cbn in H; try discriminate; try (split; reflexivity); destruct (Bool.eqb sa sb); discriminate).
  destruct F as [F1 F2]. split; [exact F1|]. split; [exact F2|]. pose proof (Bplus_correct p e Hp He mode_NE a b F1 F2) as C. destruct (Rlt_bool _ _); [apply C|].
  destruct C as [C _]. apply overflow_not_finite in C. exfalso. apply diff_true_false. exact (eq_trans (eq_sym H) C).
Qed.
Lemma sub_value x y : is_float p e x -> is_float p e y -> is_number (SFsub p e x y) ->
  is_number x /\ is_number y /\ fvalue (SFsub p e x y) = rnd (fvalue x - fvalue y).
Proof.
  intros Hx Hy. destruct (lift_float Hx) as [a ->], (lift_float Hy) as [b ->]. rewrite sub_equiv, !number_B2SF, !fvalue_B2R. intros H.
  assert (F : is_finite a = true /\ is_finite b = true) by (destruct a as [sa|sa| |sa ma ea Ba], b as [sb|sb| |sb mb eb Bb]; cbn in H; try discriminate; try (split; reflexivity); destruct (Bool.eqb sa (negb sb)); discriminate).
  destruct F as [F1 F2]. split; [exact F1|]. split; [exact F2|]. pose proof (Bminus_correct p e Hp He mode_NE a b F1 F2) as C. destruct (Rlt_bool _ _); [apply C|].
  destruct C as [C _]. apply overflow_not_finite in C. exfalso. apply diff_true_false. exact (eq_trans (eq_sym H) C).
Qed.
Lemma mul_value x y : is_float p e x -> is_float p e y -> is_number (SFmul p e x y) ->
  is_number x /\ is_number y /\ fvalue (SFmul p e x y) = rnd (fvalue x * fvalue y).
Proof.
  intros Hx Hy. destruct (lift_float Hx) as [a ->], (lift_float Hy) as [b ->]. rewrite mul_equiv, !number_B2SF, !fvalue_B2R. intros H.
  assert (F : is_finite a = true /\ is_finite b = true) by (destruct a as [sa|sa| |sa ma ea Ba], b as [sb|sb| |sb mb eb Bb]; cbn in H; try discriminate; split; reflexivity).
  destruct F as [F1 F2]. split; [exact F1|]. split; [exact F2|]. pose proof (Bmult_correct p e Hp He mode_NE a b) as C. destruct (Rlt_bool _ _); [apply C|].
  apply overflow_not_finite in C. exfalso. apply diff_true_false. exact (eq_trans (eq_sym H) C).
Qed.
Lemma div_value x y : is_float p e x -> is_float p e y -> is_number y -> is_number (SFdiv p e x y) ->
  is_number x /\ fvalue y <> 0 /\ fvalue (SFdiv p e x y) = rnd (fvalue x / fvalue y).
Proof.
  intros Hx Hy. destruct (lift_float Hx) as [a ->], (lift_float Hy) as [b ->]. rewrite div_equiv, !number_B2SF, !fvalue_B2R. intros Fb H.
  assert (Z : B2R b <> 0).
  { destruct b as [sb|sb| |sb mb eb Bb]; try discriminate; [destruct a as [sa|sa| |sa ma ea Ba]; discriminate|]. cbn. intros E. apply eq_0_F2R in E. destruct sb; discriminate. }
  pose proof (Bdiv_correct p e Hp He mode_NE a b Z) as C. destruct (Rlt_bool _ _).
  - destruct C as (C1 & C2 & _). split; [exact (eq_trans (eq_sym C2) H)|]. split; [exact Z|exact C1].
  - apply overflow_not_finite in C. exfalso. apply diff_true_false. exact (eq_trans (eq_sym H) C).
Qed.
Lemma opp_value x : is_number (SFopp x) -> is_number x /\ fvalue (SFopp x) = - fvalue x.
Proof. destruct x as [s|s| |s m x]; cbn; intros H; try tauto; (split; [exact H|]); [ring|]. destruct s; cbn; ring. Qed.
Lemma normalize_value m x s : is_number (SpecFloat.binary_normalize p e m x s) -> fvalue (SpecFloat.binary_normalize p e m x s) = rnd (F2R (Float radix2 m x)).
Proof.
  rewrite normalize_equiv, number_B2SF, fvalue_B2R. intros H. pose proof (binary_normalize_correct p e Hp He mode_NE m x s) as C. cbv zeta in C.
  destruct (Rlt_bool _ _); [apply C|]. apply overflow_not_finite in C. exfalso. apply diff_true_false. exact (eq_trans (eq_sym H) C).
Qed.
Lemma float_format x : is_float p e x -> generic_format radix2 (SpecFloat.fexp p e) (fvalue x).
Proof. intros Hx. destruct (lift_float Hx) as [a ->]. rewrite fvalue_B2R. apply generic_format_B2R. Qed.
Lemma rnd_float x : is_float p e x -> rnd (fvalue x) = fvalue x.
Proof. intros Hx. apply round_generic; [apply valid_rnd_N|]. apply float_format. exact Hx. Qed.
Lemma F2R_pow m x y : (y <= x)%Z -> F2R (Float radix2 m x) = F2R (Float radix2 (m * 2 ^ (x - y)) y).
Proof. intros H. apply F2R_change_exp. exact H. Qed.
Lemma fma_value x y z : is_float p e x -> is_float p e y -> is_float p e z -> is_number (sf_fma p e x y z) ->
  is_number x /\ is_number y /\ is_number z /\ fvalue (sf_fma p e x y z) = rnd (fvalue x * fvalue y + fvalue z).
Proof.
  intros Hx Hy Hz. assert (M : is_float p e (SFmul p e x y)) by (apply mul_float; assumption).
  assert (G : (forall s m k, x = S754_finite s m k -> forall s' m' k', y <> S754_finite s' m' k') -> is_number (SFadd p e (SFmul p e x y) z) ->
    is_number x /\ is_number y /\ is_number z /\ fvalue (SFadd p e (SFmul p e x y) z) = rnd (fvalue x * fvalue y + fvalue z)).
  { intros Hn H. destruct (add_value M Hz H) as (A1 & A2 & A3). destruct (mul_value Hx Hy A1) as (B1 & B2 & B3). split; [exact B1|]. split; [exact B2|]. split; [exact A2|].
    rewrite A3. do 2 f_equal. destruct x as [sx|sx| |sx mx ex]; try destruct B1; destruct y as [sy|sy| |sy my ey]; try destruct B2; try (cbn; ring).
    exfalso. eapply Hn; reflexivity. }
  destruct x as [sx|sx| |sx mx ex]; [apply G; intros; discriminate..|].
  destruct y as [sy|sy| |sy my ey]; [apply G; intros; discriminate..|]. clear G.
  destruct z as [sz|sz| |sz mz ez]; cbn [sf_fma].
  - intros H. destruct (mul_value Hx Hy H) as (B1 & B2 & B3). split; [exact I|]. split; [exact I|]. split; [exact I|]. rewrite B3. f_equal. cbn [fvalue]. ring.
  - intros [].
  - intros H. exfalso. destruct (SFmul p e (S754_finite sx mx ex) (S754_finite sy my ey)); exact H.
  - intros H. split; [exact I|]. split; [exact I|]. split; [exact I|]. rewrite normalize_value by exact H. f_equal.
    set (k := Z.min (ex + ey) ez). rewrite !fvalue_SF2R. cbn [SF2R]. rewrite <- F2R_mult. cbn [Fmult].
    rewrite (F2R_pow _ (y := k) (x := (ex + ey)%Z)) by (unfold k; lia). rewrite (F2R_pow (cond_Zopp sz (Zpos mz)) (y := k) (x := ez)) by (unfold k; lia).
    assert (E : cond_Zopp (xorb sx sy) (Z.pos (mx * my)) = (cond_Zopp sx (Z.pos mx) * cond_Zopp sy (Z.pos my))%Z) by (destruct sx, sy; reflexivity).
    rewrite E. unfold F2R. cbn [Fnum Fexp]. rewrite plus_IZR. ring.
Qed.
Lemma sqrt_value x : is_float p e x -> is_number (SFsqrt p e x) -> is_number x /\ 0 <= fvalue x /\ fvalue (SFsqrt p e x) = rnd (sqrt (fvalue x)).
Proof.
  intros Hx. destruct (lift_float Hx) as [a ->]. rewrite sqrt_equiv, !number_B2SF, !fvalue_B2R. intros H. destruct (Bsqrt_correct p e Hp He mode_NE a) as (C1 & C2 & _).
  assert (H' := eq_trans (eq_sym C2) H). clear H. rename H' into H. destruct a as [sa|sa| |sa ma ea Ba]; try discriminate; (split; [reflexivity|]).
  - split; [cbn; lra|exact C1].
  - destruct sa; [discriminate|]. split; [|exact C1]. cbn. apply F2R_ge_0. cbn. lia.
Qed.

(** *** rounding errors *)
Lemma fexp_FLT : SpecFloat.fexp p e = FLT_exp (3 - e - p) p.
Proof. reflexivity. Qed.
Lemma u_bpow : unit_roundoff p = /2 * bpow radix2 (- p + 1).
Proof. unfold unit_roundoff. rewrite powerRZ_bpow, bpow_plus. cbn. field. Qed.
Lemma tiny_bpow : tiny p e = /2 * bpow radix2 (3 - e - p).
Proof. unfold tiny. rewrite powerRZ_bpow. replace (3 - e - p)%Z with (2 - e - p + 1)%Z by ring. rewrite bpow_plus. cbn. field. Qed.
Lemma u_pos : 0 < unit_roundoff p <= / 2.
Proof.
  unfold unit_roundoff. rewrite powerRZ_bpow. split; [apply bpow_gt_0|]. change (/ 2) with (bpow radix2 (-1)). apply bpow_le. lia.
Qed.
Lemma tiny_pos : 0 < tiny p e.
Proof. unfold tiny. rewrite powerRZ_bpow. apply bpow_gt_0. Qed.
Lemma rnd_error t : Rabs (rnd t - t) <= unit_roundoff p * Rabs t + tiny p e.
Proof.
  destruct (error_N_FLT radix2 (3 - e - p) p Hp (fun n => negb (Z.even n)) t) as (d & h & Hd & Hh & _ & E). rewrite <- fexp_FLT in E.
  change (Znearest (fun n => negb (Z.even n))) with ZnearestE in E. rewrite E, u_bpow, tiny_bpow.
  replace (t * (1 + d) + h - t) with (d * t + h) by ring. eapply Rle_trans; [apply Rabs_triang|]. rewrite Rabs_mult. apply Rplus_le_compat; [|exact Hh].
  apply Rmult_le_compat_r; [apply Rabs_pos|exact Hd].
Qed.
Lemma rnd_plus_error x y : is_float p e x -> is_float p e y -> Rabs (rnd (fvalue x + fvalue y) - (fvalue x + fvalue y)) <= unit_roundoff p * Rabs (fvalue x + fvalue y).
Proof.
  intros Hx Hy. destruct (FLT_plus_error_N_ex radix2 (3 - e - p) p (fun n => negb (Z.even n)) (fvalue x) (fvalue y) (float_format Hx) (float_format Hy)) as (d & Hd & E).
  rewrite <- fexp_FLT in E. change (Znearest (fun n => negb (Z.even n))) with ZnearestE in E. rewrite E. set (t := fvalue x + fvalue y).
  replace (t * (1 + d) - t) with (d * t) by ring. rewrite Rabs_mult. apply Rmult_le_compat_r; [apply Rabs_pos|]. eapply Rle_trans; [exact Hd|].
  eapply Rle_trans; [apply u_rod1pu_ro_le_u_ro|]. unfold u_ro. rewrite u_bpow. lra.
Qed.
(** *** absence of overflow: the exact result is at most half the overflow threshold *)
Lemma rnd_fits t : Rabs t <= largest e -> Rlt_bool (Rabs (rnd t)) (bpow radix2 e) = true.
Proof.
  intros H. apply Rlt_bool_true. apply Rle_lt_trans with (bpow radix2 (e - 1)); [|apply bpow_lt; lia]. unfold largest in H. rewrite powerRZ_bpow in H.
  apply abs_round_le_generic; [apply fexp_correct; exact Hp|apply valid_rnd_N| |exact H].
  apply generic_format_bpow. rewrite fexp_FLT. unfold FLT_exp. lia.
Qed.
Lemma add_number x y : is_float p e x -> is_float p e y -> is_number x -> is_number y -> Rabs (fvalue x + fvalue y) <= largest e -> is_number (SFadd p e x y).
Proof.
  intros Hx Hy. destruct (lift_float Hx) as [a ->], (lift_float Hy) as [b ->]. rewrite add_equiv, !number_B2SF, !fvalue_B2R. intros F1 F2 H.
  pose proof (Bplus_correct p e Hp He mode_NE a b F1 F2) as C. apply rnd_fits in H. cbn [round_mode] in C. rewrite H in C. apply C.
Qed.
Lemma sub_number x y : is_float p e x -> is_float p e y -> is_number x -> is_number y -> Rabs (fvalue x - fvalue y) <= largest e -> is_number (SFsub p e x y).
Proof.
  intros Hx Hy. destruct (lift_float Hx) as [a ->], (lift_float Hy) as [b ->]. rewrite sub_equiv, !number_B2SF, !fvalue_B2R. intros F1 F2 H.
  pose proof (Bminus_correct p e Hp He mode_NE a b F1 F2) as C. apply rnd_fits in H. cbn [round_mode] in C. rewrite H in C. apply C.
Qed.
Lemma mul_number x y : is_float p e x -> is_float p e y -> is_number x -> is_number y -> Rabs (fvalue x * fvalue y) <= largest e -> is_number (SFmul p e x y).
Proof.
  intros Hx Hy. destruct (lift_float Hx) as [a ->], (lift_float Hy) as [b ->]. rewrite mul_equiv, !number_B2SF, !fvalue_B2R. intros F1 F2 H.
  pose proof (Bmult_correct p e Hp He mode_NE a b) as C. apply rnd_fits in H. cbn [round_mode] in C. rewrite H in C. destruct C as (_ & C & _). refine (eq_trans C _). rewrite F1, F2. reflexivity.
Qed.
Lemma div_number x y : is_float p e x -> is_float p e y -> is_number x -> is_number y -> fvalue y <> 0 -> Rabs (fvalue x / fvalue y) <= largest e -> is_number (SFdiv p e x y).
Proof.
  intros Hx Hy. destruct (lift_float Hx) as [a ->], (lift_float Hy) as [b ->]. rewrite div_equiv, !number_B2SF, !fvalue_B2R. intros F1 F2 Z H.
  pose proof (Bdiv_correct p e Hp He mode_NE a b Z) as C. apply rnd_fits in H. cbn [round_mode] in C. rewrite H in C. destruct C as (_ & C & _). exact (eq_trans C F1).
Qed.
Lemma normalize_number m x s : Rabs (F2R (Float radix2 m x)) <= largest e -> is_number (SpecFloat.binary_normalize p e m x s).
Proof.
  rewrite normalize_equiv, number_B2SF. intros H. pose proof (binary_normalize_correct p e Hp He mode_NE m x s) as C. cbv zeta in C.
  apply rnd_fits in H. cbn [round_mode] in C. rewrite H in C. apply C.
Qed.
Lemma opp_number x : is_number x -> is_number (SFopp x).
Proof. destruct x; cbn; trivial. Qed.
Lemma fma_number x y z : is_float p e x -> is_float p e y -> is_float p e z -> is_number x -> is_number y -> is_number z ->
  Rabs (fvalue x * fvalue y + fvalue z) <= largest e -> is_number (sf_fma p e x y z).
Proof.
  intros Hx Hy Hz Nx Ny Nz H. assert (M : is_float p e (SFmul p e x y)) by (apply mul_float; assumption).
  assert (G : SFmul p e x y = S754_zero false \/ SFmul p e x y = S754_zero true -> fvalue x * fvalue y = 0 -> is_number (SFadd p e (SFmul p e x y) z)).
  { intros E E0. assert (Zm : fvalue (SFmul p e x y) = 0 /\ is_number (SFmul p e x y)) by (destruct E as [-> | ->]; split; reflexivity || exact I).
    destruct Zm as [Z1 Z2]. apply add_number; try assumption. rewrite Z1. rewrite E0 in H. exact H. }
  destruct x as [sx|sx| |sx mx ex]; try destruct Nx; destruct y as [sy|sy| |sy my ey]; try destruct Ny.
  - apply G; [destruct sx, sy; cbn; tauto|cbn; ring].
  - apply G; [destruct sx, sy; cbn; tauto|cbn; ring].
  - apply G; [destruct sx, sy; cbn; tauto|cbn; ring].
  - clear G. destruct z as [sz|sz| |sz mz ez]; try destruct Nz; cbn [sf_fma].
    + apply mul_number; try assumption; try exact I. cbn [fvalue] in *. rewrite Rplus_0_r in H. exact H.
    + apply normalize_number. set (k := Z.min (ex + ey) ez). rewrite !fvalue_SF2R in H. cbn [SF2R] in H. rewrite <- F2R_mult in H. cbn [Fmult] in H.
      rewrite (F2R_pow _ (y := k) (x := (ex + ey)%Z)) in H by (unfold k; lia). rewrite (F2R_pow (cond_Zopp sz (Zpos mz)) (y := k) (x := ez)) in H by (unfold k; lia).
      assert (E : cond_Zopp (xorb sx sy) (Z.pos (mx * my)) = (cond_Zopp sx (Z.pos mx) * cond_Zopp sy (Z.pos my))%Z) by (destruct sx, sy; reflexivity).
      rewrite E. unfold F2R in *. cbn [Fnum Fexp] in *. rewrite plus_IZR. rewrite Rmult_plus_distr_r. exact H.
Qed.
(** *** constants and quotients *)
Lemma one_value : is_number (SpecFloat.binary_normalize p e 1 0 false) /\ fvalue (SpecFloat.binary_normalize p e 1 0 false) = 1.
Proof.
  assert (E : F2R (Float radix2 1 0) = 1) by (unfold F2R; cbn; ring).
  assert (H : is_number (SpecFloat.binary_normalize p e 1 0 false)).
  { apply normalize_number. rewrite E, Rabs_R1. unfold largest. rewrite powerRZ_bpow. change 1 with (bpow radix2 0). apply bpow_le. lia. }
  split; [exact H|]. rewrite normalize_value by exact H. rewrite E. apply round_generic; [apply valid_rnd_N|]. change 1 with (bpow radix2 0). apply generic_format_bpow.
  rewrite fexp_FLT. unfold FLT_exp. lia.
Qed.
Lemma div_cases x y : is_float p e x -> is_float p e y -> is_number (SFdiv p e x y) ->
  is_number x /\ ((is_number y /\ fvalue y <> 0 /\ fvalue (SFdiv p e x y) = rnd (fvalue x / fvalue y)) \/ (~ is_number y /\ fvalue (SFdiv p e x y) = 0)).
Proof.
  intros Hx Hy H. destruct y as [sy|sy| |sy my ey].
  - destruct (div_value Hx Hy I H) as (A & B & C). split; [exact A|left]. split; [exact I|]. split; assumption.
  - destruct x as [sx|sx| |sx mx ex]; cbn in H; try destruct H; (split; [exact I|right]); (split; [tauto|reflexivity]).
  - destruct x as [sx|sx| |sx mx ex]; destruct H.
  - destruct (div_value Hx Hy I H) as (A & B & C). split; [exact A|left]. split; [exact I|]. split; assumption.
Qed.
Lemma div_negated m x y : is_float p e m -> fvalue m = -1 -> is_float p e x -> is_float p e y -> is_number (SFdiv p e x y) -> is_number (SFdiv p e (SFmul p e m x) y) ->
  fvalue (SFdiv p e (SFmul p e m x) y) = - fvalue (SFdiv p e x y).
Proof.
  intros Fm Em Hx Hy H1 H2. assert (Fmx : is_float p e (SFmul p e m x)) by (apply mul_float; assumption).
  destruct (div_cases Hx Hy H1) as [N1 [(A1 & A2 & A3)|(A1 & A2)]]; destruct (div_cases Fmx Hy H2) as [N2 [(B1 & B2 & B3)|(B1 & B2)]]; try contradiction.
  - rewrite A3, B3. destruct (mul_value Fm Hx N2) as (_ & _ & E). rewrite E, Em. replace (-1 * fvalue x) with (- fvalue x) by ring.
    rewrite round_NE_opp, (rnd_float Hx). replace (- fvalue x / fvalue y) with (- (fvalue x / fvalue y)) by (field; exact A2). apply round_NE_opp.
  - rewrite A2, B2. ring.
Qed.
End Format.
