(** FloatSum: rounding error of floating-point sums of products, whatever the order of summation. *)
From Coq Require Import Reals Lra Lia ZArith.
From Coq Require Import Floats.SpecFloat.
From Verif Require Import Base Index Outcome Sched Arith Launch Vector Float ExactSum.
Set Implicit Arguments.
Local Open Scope R_scope.

(** ** Specification: the error bound for [n] terms of total magnitude [s] *)
Definition gamma (p : Z) (n : nat) : R := (1 + unit_roundoff p) ^ n - 1.
Definition sum_error (p e : Z) (n : nat) (s : R) : R := gamma p n * s + INR n * (1 + unit_roundoff p) ^ n * tiny p e.

Lemma Rsum_le {P} (f g : P -> R) l : (forall p, In p l -> f p <= g p)%R -> (Rsum f l <= Rsum g l)%R.
Proof.
  induction l as [|a l IH]; intros H; rewrite ?Rsum_nil, ?Rsum_cons; [lra|]. apply Rplus_le_compat; [apply H; left; reflexivity|apply IH; intros p Hp; apply H; right; exact Hp].
Qed.
Lemma Forall2_perm_r (T U : Type) (R : T -> U -> Prop) (l l' : list U) : Permutation l l' -> forall tss, Forall2 R tss l -> exists tss', Permutation tss tss' /\ Forall2 R tss' l'.
Proof.
  induction 1 as [|a m m' H IH|a b m|m m' m'' H1 IH1 H2 IH2]; intros tss Hf.
  - inversion Hf; subst. exists (@nil T). split; [apply Permutation_refl|constructor].
  - inversion Hf as [|t ? ts ? P1 P2]; subst. destruct (IH _ P2) as [ts' [Q1 Q2]]. exists (t :: ts'). split; [constructor; exact Q1|constructor; assumption].
  - inversion Hf as [|t ? ts ? P1 P2]; subst. inversion P2 as [|t' ? ts' ? P3 P4]; subst. exists (t' :: t :: ts'). split; [apply perm_swap|repeat constructor; assumption].
  - destruct (IH1 _ Hf) as [t1 [Q1 Q2]]. destruct (IH2 _ Q2) as [t2 [Q3 Q4]]. exists t2. split; [eapply perm_trans; eassumption|exact Q4].
Qed.

Section Sum.
Variables p e : Z.
Hypothesis Hp : (0 < p)%Z.
Hypothesis He : (p < e)%Z.
Notation u := (unit_roundoff p).
Notation eta := (tiny p e).
Notation total := (Rsum (fun t : R => t)).
Notation mag := (Rsum Rabs).

(** all inputs are finite *)
Variable N : Prop.
Definition fits (ts : list R) : Prop := mag ts + sum_error p e (length ts) (mag ts) <= largest e.
Definition approx (ts : list R) (x : spec_float) : Prop :=
  is_float p e x /\ (is_number x -> Rabs (fvalue x - total ts) <= sum_error p e (length ts) (mag ts)) /\ (N -> fits ts -> is_number x).

Lemma u_nonneg : 0 <= u.
Proof. destruct (u_pos Hp). lra. Qed.
Lemma eta_nonneg : 0 <= eta.
Proof. pose proof (tiny_pos p e). lra. Qed.
Lemma pow_ge n : 1 <= (1 + u) ^ n.
Proof. apply pow_R1_Rle. pose proof u_nonneg. lra. Qed.
Lemma pow_mono n m : (n <= m)%nat -> (1 + u) ^ n <= (1 + u) ^ m.
Proof. intros H. apply Rle_pow; [pose proof u_nonneg; lra|exact H]. Qed.
Lemma mag_nonneg ts : 0 <= mag ts.
Proof. apply Rsum_nonneg. intros; apply Rabs_pos. Qed.
Lemma total_le_mag ts : Rabs (total ts) <= mag ts.
Proof.
  induction ts as [|t ts IH]; rewrite ?Rsum_nil, ?Rsum_cons; [rewrite Rabs_R0; lra|]. eapply Rle_trans; [apply Rabs_triang|]. lra.
Qed.
Lemma gamma_nonneg n : 0 <= gamma p n.
Proof. unfold gamma. pose proof (pow_ge n). lra. Qed.
Lemma sum_error_nonneg n s : 0 <= s -> 0 <= sum_error p e n s.
Proof.
  intros Hs. unfold sum_error. pose proof (gamma_nonneg n). pose proof (pow_ge n). pose proof eta_nonneg. pose proof (pos_INR n).
  apply Rplus_le_le_0_compat; [apply Rmult_le_pos; assumption|]. apply Rmult_le_pos; [apply Rmult_le_pos; lra|assumption].
Qed.
Lemma sum_error_mono n m s t : (n <= m)%nat -> 0 <= s <= t -> sum_error p e n s <= sum_error p e m t.
Proof.
  intros H Hs. unfold sum_error. pose proof (pow_mono H). pose proof (pow_ge n). pose proof eta_nonneg. pose proof (pos_INR n). pose proof (le_INR _ _ H). pose proof (gamma_nonneg n).
  apply Rplus_le_compat.
  - apply Rmult_le_compat; try lra. unfold gamma. lra.
  - apply Rmult_le_compat_r; [lra|]. apply Rmult_le_compat; lra.
Qed.
Lemma zero_value x : approx [] x -> is_number x -> fvalue x = 0.
Proof.
  intros [_ [H _]] Hn. specialize (H Hn). unfold sum_error, gamma in H. cbn [length pow INR] in H. rewrite !Rsum_nil in H. replace ((1 - 1) * 0 + 0 * 1 * eta) with 0 in H by ring.
  rewrite Rminus_0_r in H. destruct (Req_dec (fvalue x) 0) as [E|E]; [exact E|]. apply Rabs_pos_lt in E. lra.
Qed.
Lemma approx_zero s : approx [] (S754_zero s).
Proof. split; [reflexivity|]. split; [|intros _ _; exact I]. intros _. cbn [fvalue length]. rewrite !Rsum_nil, Rminus_0_r, Rabs_R0. apply sum_error_nonneg. lra. Qed.
Lemma approx_value x : is_float p e x -> (N -> is_number x) -> approx [fvalue x] x.
Proof.
  intros H HN. split; [exact H|]. split; [|intros Hn _; exact (HN Hn)]. intros _. rewrite !Rsum_cons, !Rsum_nil. rewrite Rplus_0_r, Rminus_diag_eq, Rabs_R0 by reflexivity. apply sum_error_nonneg. pose proof (Rabs_pos (fvalue x)). lra.
Qed.
Lemma approx_perm ts ts' x : Permutation ts ts' -> approx ts x -> approx ts' x.
Proof. intros H [A B]. split; [exact A|]. unfold fits in *. rewrite <- (Permutation_length H), <- (Rsum_perm (fun t => t) H), <- (Rsum_perm Rabs H). exact B. Qed.
Lemma approx_product x y : is_float p e x -> is_float p e y -> (N -> is_number x /\ is_number y) -> approx [fvalue x * fvalue y] (SFmul p e x y).
Proof.
  intros Hx Hy HN. split; [apply mul_float; assumption|]. split.
  2:{ intros Hn F. destruct (HN Hn) as [N1 N2]. apply mul_number; try assumption. unfold fits in F. rewrite !Rsum_cons, !Rsum_nil, !Rplus_0_r in F. pose proof (sum_error_nonneg 1 (Rabs_pos (fvalue x * fvalue y))). cbn [length] in F. lra. }
  intros Hn. destruct (mul_value Hp He Hx Hy Hn) as (_ & _ & ->). rewrite !Rsum_cons, !Rsum_nil, !Rplus_0_r.
  eapply Rle_trans; [apply rnd_error; assumption|]. unfold sum_error, gamma. cbn [length pow INR]. pose proof u_nonneg. pose proof eta_nonneg. nra.
Qed.
(** the two parts of a sum *)
Lemma part_error n m a s d : (n < m)%nat -> 0 <= s -> 0 <= d -> a = sum_error p e n s -> d <= a -> d + u * (s + d) <= sum_error p e m s - INR m * (1 + u) ^ m * eta + INR n * (1 + u) ^ m * eta.
Proof.
  intros Hnm Hs Hd -> Hda. unfold sum_error, gamma in *. pose proof u_nonneg. pose proof eta_nonneg. pose proof (pos_INR n).
  assert (P : (1 + u) * (1 + u) ^ n <= (1 + u) ^ m) by (change ((1 + u) ^ S n <= (1 + u) ^ m); apply pow_mono; lia). pose proof (pow_ge n).
  assert (Q : d + u * (s + d) <= (1 + u) * (((1 + u) ^ n - 1) * s + INR n * (1 + u) ^ n * eta) + u * s) by nra.
  assert (R1 : (1 + u) * (1 + u) ^ n * s <= (1 + u) ^ m * s) by (apply Rmult_le_compat_r; lra).
  assert (R2 : INR n * eta * ((1 + u) * (1 + u) ^ n) <= INR n * eta * (1 + u) ^ m) by (apply Rmult_le_compat_l; [apply Rmult_le_pos; lra|lra]).
  nra.
Qed.
Lemma fits_le ts1 ts2 ts : (length ts1 <= length ts)%nat -> mag ts = mag ts1 + mag ts2 -> fits ts -> fits ts1.
Proof.
  unfold fits. intros Hl Hm F. pose proof (mag_nonneg ts1). pose proof (mag_nonneg ts2). assert (M : 0 <= mag ts1 <= mag ts) by lra. pose proof (sum_error_mono Hl M). lra.
Qed.
(** the exact sum of two approximations: its error, and its error after rounding *)
Lemma two_parts l1 l2 x y : l1 <> [] -> l2 <> [] -> Rabs (fvalue x - total l1) <= sum_error p e (length l1) (mag l1) -> Rabs (fvalue y - total l2) <= sum_error p e (length l2) (mag l2) ->
  Rabs (fvalue x + fvalue y) <= mag (l1 ++ l2) + sum_error p e (length (l1 ++ l2)) (mag (l1 ++ l2)) /\
  Rabs (fvalue x + fvalue y - total (l1 ++ l2)) + u * Rabs (fvalue x + fvalue y) <= sum_error p e (length (l1 ++ l2)) (mag (l1 ++ l2)).
Proof.
  intros Hl1 Hl2 A1 A2.
  assert (L1 : (length l1 < length (l1 ++ l2))%nat) by (rewrite app_length; destruct l2; [congruence|cbn [length]; lia]). assert (L2 : (length l2 < length (l1 ++ l2))%nat) by (rewrite app_length; destruct l1; [congruence|cbn [length]; lia]).
  assert (LI : INR (length (l1 ++ l2)) = INR (length l1) + INR (length l2)) by (rewrite app_length; apply plus_INR).
  set (m := length (l1 ++ l2)) in *. rewrite !Rsum_app.
  set (d1 := Rabs (fvalue x - total l1)) in *. set (d2 := Rabs (fvalue y - total l2)) in *.
  pose proof (part_error L1 (mag_nonneg l1) (Rabs_pos _ : 0 <= d1) eq_refl A1) as P1. pose proof (part_error L2 (mag_nonneg l2) (Rabs_pos _ : 0 <= d2) eq_refl A2) as P2.
  assert (S1 : Rabs (fvalue x) <= mag l1 + d1). { replace (fvalue x) with (total l1 + (fvalue x - total l1)) by ring. eapply Rle_trans; [apply Rabs_triang|]. pose proof (total_le_mag l1). unfold d1. lra. }
  assert (S2 : Rabs (fvalue y) <= mag l2 + d2). { replace (fvalue y) with (total l2 + (fvalue y - total l2)) by ring. eapply Rle_trans; [apply Rabs_triang|]. pose proof (total_le_mag l2). unfold d2. lra. }
  replace (fvalue x + fvalue y - (total l1 + total l2)) with ((fvalue x - total l1) + (fvalue y - total l2)) by ring.
  pose proof (Rabs_triang (fvalue x - total l1) (fvalue y - total l2)) as T. fold d1 d2 in T. pose proof (Rabs_triang (fvalue x) (fvalue y)) as T2.
  assert (V : u * Rabs (fvalue x + fvalue y) <= u * (mag l1 + d1) + u * (mag l2 + d2)). { rewrite <- Rmult_plus_distr_l. apply Rmult_le_compat_l; [apply u_nonneg|]. lra. }
  assert (G : sum_error p e m (mag l1 + mag l2) = sum_error p e m (mag l1) + sum_error p e m (mag l2) - INR m * (1 + u) ^ m * eta) by (unfold sum_error; ring).
  rewrite G. rewrite LI in *. set (w := (1 + u) ^ m) in *. assert (X : (INR (length l1) + INR (length l2)) * w * eta = INR (length l1) * w * eta + INR (length l2) * w * eta) by ring.
  pose proof u_nonneg. pose proof (mag_nonneg l1). pose proof (mag_nonneg l2). assert (0 <= d1) by apply Rabs_pos. assert (0 <= d2) by apply Rabs_pos.
  assert (0 <= u * (mag l1 + d1)) by (apply Rmult_le_pos; lra). assert (0 <= u * (mag l2 + d2)) by (apply Rmult_le_pos; lra). split; lra.
Qed.
Lemma approx_add ts1 ts2 x y : approx ts1 x -> approx ts2 y -> approx (ts1 ++ ts2) (SFadd p e x y).
Proof.
  intros [F1 [A1 O1]] [F2 [A2 O2]]. split; [apply add_float; assumption|].
  assert (Z1 : ts1 = [] -> is_number x -> fvalue x = 0) by (intros -> Hn; exact (zero_value (conj F1 (conj A1 O1)) Hn)).
  assert (Z2 : ts2 = [] -> is_number y -> fvalue y = 0) by (intros -> Hn; exact (zero_value (conj F2 (conj A2 O2)) Hn)).
  split.
  - intros Hn. destruct (add_value Hp He F1 F2 Hn) as (N1 & N2 & E).
    destruct ts1 as [|t1 ts1]; [|destruct ts2 as [|t2 ts2]].
    + rewrite E, (Z1 eq_refl N1), Rplus_0_l, rnd_float by assumption. exact (A2 N2).
    + rewrite E, (Z2 eq_refl N2), Rplus_0_r, rnd_float by assumption. rewrite app_nil_r. exact (A1 N1).
    + pose proof (rnd_plus_error Hp F1 F2) as R. rewrite <- E in R. destruct (@two_parts (t1 :: ts1) (t2 :: ts2) x y) as [_ B]; [discriminate|discriminate|exact (A1 N1)|exact (A2 N2)|].
      set (ts := (t1 :: ts1) ++ t2 :: ts2) in *.
      replace (fvalue (SFadd p e x y) - total ts) with ((fvalue (SFadd p e x y) - (fvalue x + fvalue y)) + (fvalue x + fvalue y - total ts)) by ring.
      eapply Rle_trans; [apply Rabs_triang|]. lra.
  - intros Hn F. assert (FF : fits ts1 /\ fits ts2).
    { split; [apply (@fits_le ts1 ts2 (ts1 ++ ts2))|apply (@fits_le ts2 ts1 (ts1 ++ ts2))]; rewrite ?app_length, ?Rsum_app; try lia; try ring; exact F. }
    destruct FF as [FF1 FF2]. pose proof (O1 Hn FF1) as N1. pose proof (O2 Hn FF2) as N2. apply add_number; try assumption.
    destruct ts1 as [|t1 ts1]; [|destruct ts2 as [|t2 ts2]].
    + rewrite (Z1 eq_refl N1), Rplus_0_l. pose proof (A2 N2) as B. pose proof (total_le_mag ts2). unfold fits in FF2.
      replace (fvalue y) with (total ts2 + (fvalue y - total ts2)) by ring. eapply Rle_trans; [apply Rabs_triang|]. lra.
    + rewrite (Z2 eq_refl N2), Rplus_0_r. pose proof (A1 N1) as B. pose proof (total_le_mag (t1 :: ts1)). unfold fits in FF1. set (ts := t1 :: ts1) in *.
      replace (fvalue x) with (total ts + (fvalue x - total ts)) by ring. eapply Rle_trans; [apply Rabs_triang|]. lra.
    + destruct (@two_parts (t1 :: ts1) (t2 :: ts2) x y) as [B _]; [discriminate|discriminate|exact (A1 N1)|exact (A2 N2)|]. unfold fits in F. lra.
Qed.

(** *** the sums of the code *)
Notation A := (ieee p e).
Lemma dot_loop_approx (l : list (spec_float * spec_float)) : forall ts acc, approx ts acc -> (forall xy, In xy l -> is_float p e (fst xy) /\ is_float p e (snd xy) /\ (N -> is_number (fst xy) /\ is_number (snd xy))) ->
  approx (ts ++ map (fun xy => fvalue (fst xy) * fvalue (snd xy)) l) (dot_loop A acc (flat_map (fun xy => [fst xy; snd xy]) l)).
Proof.
  induction l as [|[x y] l IH]; intros ts acc Ha Hf; cbn [map flat_map app dot_loop]; [rewrite app_nil_r; exact Ha|].
  destruct (Hf (x, y) (or_introl eq_refl)) as (F1 & F2 & F3). cbn [fst snd] in *. change (fvalue x * fvalue y :: map (fun xy => fvalue (fst xy) * fvalue (snd xy)) l) with ([fvalue x * fvalue y] ++ map (fun xy => fvalue (fst xy) * fvalue (snd xy)) l).
  rewrite app_assoc. apply IH; [|intros; apply Hf; right; assumption]. apply approx_add; [exact Ha|]. apply approx_product; assumption.
Qed.
Lemma accumulate_approx (l : list (spec_float * spec_float)) : forall ts acc, approx ts acc -> (forall xy, In xy l -> is_float p e (fst xy) /\ is_float p e (snd xy) /\ (N -> is_number (fst xy) /\ is_number (snd xy))) ->
  approx (ts ++ map (fun xy => fvalue (fst xy) * fvalue (snd xy)) l) (fold_left (fun a xy => aadd A a (amul A (fst xy) (snd xy))) l acc).
Proof.
  induction l as [|[x y] l IH]; intros ts acc Ha Hf; cbn [map fold_left]; [rewrite app_nil_r; exact Ha|].
  destruct (Hf (x, y) (or_introl eq_refl)) as (F1 & F2 & F3). cbn [fst snd] in *. change (fvalue x * fvalue y :: map (fun xy => fvalue (fst xy) * fvalue (snd xy)) l) with ([fvalue x * fvalue y] ++ map (fun xy => fvalue (fst xy) * fvalue (snd xy)) l).
  rewrite app_assoc. apply IH; [|intros; apply Hf; right; assumption]. apply approx_add; [exact Ha|]. apply approx_product; assumption.
Qed.
(** any reduction tree over approximations of sums approximates the sum *)
Lemma reduces_approx l x : reduces_to A l x -> forall tss, Forall2 approx tss l -> approx (concat tss) x.
Proof.
  induction 1 as [|x|l l1 l2 x y Hpm H1 IH1 H2 IH2]; intros tss Hf.
  - inversion Hf; subst. apply approx_zero.
  - inversion Hf as [|? ? ? ? H3 H4]; subst. inversion H4; subst. cbn [concat]. rewrite app_nil_r. exact H3.
  - pose proof (Forall2_perm_r Hpm Hf) as G.
    destruct G as [tss' [G1 G2]]. apply Forall2_app_inv_r in G2. destruct G2 as (t1 & t2 & G3 & G4 & ->).
    apply approx_perm with (ts := concat t1 ++ concat t2).
    + rewrite <- concat_app. clear -G1. apply Permutation_sym. induction G1; cbn [concat]; [constructor|apply Permutation_app_head; assumption|rewrite !app_assoc; apply Permutation_app_tail, Permutation_app_comm|eapply perm_trans; eassumption].
    + apply approx_add; [apply IH1|apply IH2]; assumption.
Qed.
End Sum.
