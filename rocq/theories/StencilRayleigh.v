(** StencilRayleigh: quantitative version of StencilPositive: bounds for the Rayleigh quotients of a weakly diagonally
    dominant stencil on a finite box (a discrete Poincare inequality along the direction of every offset). *)
From Coq Require Import Reals Lra.
From Verif Require Import Base Index IndexSpec IndexFacts Outcome Sched Async Arith Launch Vector PartitionSpec VectorFacts LaunchFacts Matrix MatrixSpec ExactSum LinAlg
  StencilSpec StencilSize StencilSizeFacts StencilFill StencilFillFacts StencilLaunch StencilCreate PropsStencil PropsConvolution StencilPositive.
Set Implicit Arguments.

Lemma cauchy_sum (f : nat -> R) n : (Rsum f (seq 0 n) * Rsum f (seq 0 n) <= INR n * Rsum (fun j => f j * f j) (seq 0 n))%R.
Proof.
  induction n as [|n IH]; [cbn [seq]; rewrite !Rsum_nil; cbn; lra|].
  rewrite seq_S, !Rsum_app, !Rsum_cons, !Rsum_nil, S_INR. cbn [Nat.add].
  set (s := Rsum f (seq 0 n)) in *. set (q := Rsum (fun j => f j * f j)%R (seq 0 n)) in *. set (c := f n).
  assert (Hq : (0 <= q)%R) by (apply Rsum_nonneg; intros; apply Rle_0_sqr).
  assert (H : (2 * s * c <= q + INR n * (c * c))%R).
  { destruct n as [|n]; [unfold s, q; cbn [seq]; rewrite !Rsum_nil; cbn [INR]; lra|].
    assert (Hn : (0 < INR (S n))%R) by (apply lt_0_INR; lia). set (k := INR (S n)) in *.
    assert (H2 : (0 <= (s - k * c) * (s - k * c))%R) by apply Rle_0_sqr.
    apply (Rmult_le_reg_l k); [exact Hn|]. nra. }
  nra.
Qed.
Lemma nth_padd a : forall c j, length a = length c -> nth j (padd a c) 0%Z = (nth j a 0 + nth j c 0)%Z.
Proof. induction a as [|x a IH]; intros [|y c] j H; try discriminate; [destruct j; reflexivity|]. injection H as H. destruct j; cbn [padd nth]; [reflexivity|]. apply IH, H. Qed.
Lemma shift_length v k p : length p = length v -> length (shift v k p) = length v.
Proof. intros H. induction k as [|k IH]; cbn [shift]; [exact H|]. rewrite padd_length; [exact IH|first [exact IH|symmetry; exact IH]]. Qed.
Lemma shift_inj v k p q : length p = length v -> length q = length v -> shift v k p = shift v k q -> p = q.
Proof.
  intros Hp Hq. induction k as [|k IH]; cbn [shift]; [auto|]. intros E. apply IH. apply padd_inj with v; [apply shift_length; exact Hp|apply shift_length; exact Hq|exact E].
Qed.
(** a line that has left the box does not come back *)
Lemma box_convex b v p j : in_box b p -> length v = length (lo b) -> ~ in_box b (shift v j p) -> ~ in_box b (shift v (S j) p).
Proof.
  intros [H1 [H2 H3]] Hv Hn [I1 [I2 I3]]. apply Hn.
  assert (Lp : length p = length v) by congruence.
  split; [rewrite shift_length by exact Lp; exact Hv|]. split; [exact H2|].
  intros i Hi. rewrite shift_length in Hi by exact Lp.
  assert (Hi' : i < length p) by congruence. specialize (H3 i Hi').
  assert (Hi'' : i < length (shift v (S j) p)) by (rewrite shift_length by exact Lp; exact Hi). specialize (I3 i Hi'').
  destruct (@shift_nth v (S j) p i Lp Hi) as [E _]. destruct (@shift_nth v j p i Lp Hi) as [E' _]. rewrite E in I3. rewrite E'. nia.
Qed.

Section Poincare.
Variable o : IndexOrder.
Variable b : rect.
Hypothesis Hwf : wf_box b.
Variable x : point -> R.
Variable v : point.
Hypothesis Hv : length v = length (lo b).
Variable L : nat.
Hypothesis HL : forall p, in_box b p -> ~ in_box b (shift v L p).
Variable sg : R.
Hypothesis Hsg : (sg * sg = 1)%R.
Let pts := box_points o b.
Let z := zero_outside b x.
Let S := Rsum (fun p => z p * z p)%R pts.
Let d q := (z q - sg * z (padd q v))%R.
Let G := Rsum (fun q => d q * d q)%R pts.

Lemma z_zero p : ~ in_box b p -> z p = 0%R.
Proof. intros H. destruct (Req_EM_T (z p) 0) as [E|E]; [exact E|]. exfalso. apply H. apply (@z_out b x). exact E. Qed.
Lemma telescope p n : z p = (Rsum (fun j => sg ^ j * d (shift v j p)) (seq 0 n) + sg ^ n * z (shift v n p))%R.
Proof.
  induction n as [|n IH]; [cbn [seq shift pow]; rewrite Rsum_nil; ring|].
  rewrite seq_S, Rsum_app, Rsum_cons, Rsum_nil. cbn [Nat.add]. rewrite IH at 1. cbn [shift pow]. unfold d. ring.
Qed.
Lemma shifted_G j : (Rsum (fun p => d (shift v j p) * d (shift v j p)) pts <= G)%R.
Proof.
  unfold G. 
  assert (E : Rsum (fun p => d (shift v j p) * d (shift v j p))%R pts = Rsum (fun q => d q * d q)%R (filter (contains b) (map (shift v j) pts))).
  { rewrite Rsum_filter, Rsum_map. apply Rsum_ext. intros p Hp. destruct (contains b (shift v j p)) eqn:C; [reflexivity|].
    assert (Hb : in_box b p) by (apply (in_pts o Hwf); exact Hp).
    assert (N : ~ in_box b (shift v j p)) by (intros I; apply contains_iff in I; congruence).
    unfold d. rewrite (@z_zero _ N). assert (N2 := @box_convex b v p j Hb Hv N). cbn [shift] in N2. rewrite (@z_zero _ N2). ring. }
  rewrite E. apply Rsum_incl_le.
  - apply NoDup_filter. assert (Hnd := NoDup_box_points o b). fold pts in Hnd.
    assert (Hl : forall p, In p pts -> length p = length v) by (intros p Hp; apply (in_pts o Hwf) in Hp; destruct Hp as [Hp _]; congruence).
    clear E. revert Hnd Hl. generalize pts as l. induction l as [|q l IH]; intros Hnd Hl; [constructor|]. inversion Hnd as [|? ? Hq Hnd']; subst. cbn [map]. constructor.
    + intros C. apply in_map_iff in C. destruct C as [q' [C1 C2]]. apply Hq. replace q with q'; [exact C2|].
      apply shift_inj with v j; [apply Hl; right; exact C2|apply Hl; left; reflexivity|exact C1].
    + apply IH; [exact Hnd'|]. intros p Hp. apply Hl. right. exact Hp.
  - intros q Hq. apply filter_In in Hq. apply (in_pts o Hwf), contains_iff, Hq.
  - intros q _. apply Rle_0_sqr.
Qed.
Lemma pow_sq j : (sg ^ j * sg ^ j = 1)%R.
Proof. rewrite <- Rpow_mult_distr, Hsg. apply pow1. Qed.
Lemma poincare : (S <= INR L * INR L * G)%R.
Proof.
  assert (H1 : forall p, In p pts -> (z p * z p <= INR L * Rsum (fun j => d (shift v j p) * d (shift v j p)) (seq 0 L))%R).
  { intros p Hp. assert (Hb : in_box b p) by (apply (in_pts o Hwf); exact Hp).
    assert (T := telescope p L). rewrite (@z_zero _ (HL Hb)), Rmult_0_r, Rplus_0_r in T.
    assert (C := cauchy_sum (fun j => sg ^ j * d (shift v j p))%R L). rewrite <- T in C.
    eapply Rle_trans; [exact C|]. apply Rmult_le_compat_l; [apply pos_INR|]. right. apply Rsum_ext. intros j _.
    replace (sg ^ j * d (shift v j p) * (sg ^ j * d (shift v j p)))%R with ((sg ^ j * sg ^ j) * (d (shift v j p) * d (shift v j p)))%R by ring. rewrite pow_sq. ring. }
  unfold S. eapply Rle_trans; [apply (Rsum_le _ _ _ H1)|]. rewrite Rsum_scal, Rmult_assoc. apply Rmult_le_compat_l; [apply pos_INR|].
  rewrite Rsum_swap.
  assert (Q : forall l, (Rsum (fun j => Rsum (fun p => d (shift v j p) * d (shift v j p)) pts) l <= INR (length l) * G)%R).
  { induction l as [|j l IH]; [rewrite Rsum_nil; cbn; lra|]. rewrite Rsum_cons. cbn [length]. rewrite S_INR. assert (B := shifted_G j). lra. }
  specialize (Q (seq 0 L)). rewrite seq_length in Q. exact Q.
Qed.
(** sg * D v <= (1 - 1/(2 L^2)) S *)
Lemma product_gap : 0 < L -> (sg * Rsum (fun p => z p * z (padd p v)) pts <= (1 - / (2 * (INR L * INR L))) * S)%R.
Proof.
  intros H. assert (HLp : (0 < INR L)%R) by (apply lt_0_INR; exact H). assert (P := poincare).
  assert (B := shifted_le o Hwf x v Hv). fold z pts in B. change (Rsum (fun p => z p * z p)%R pts) with S in B.
  assert (E : G = (S + Rsum (fun p => z (padd p v) * z (padd p v)) pts - 2 * (sg * Rsum (fun p => z p * z (padd p v)) pts))%R).
  { unfold G, d. rewrite (Rsum_ext _ (fun p => (z p * z p + (z (padd p v) * z (padd p v))) + (-2 * sg) * (z p * z (padd p v)))%R).
    2:{ intros p _. replace ((z p - sg * z (padd p v)) * (z p - sg * z (padd p v)))%R with (z p * z p + (sg * sg) * (z (padd p v) * z (padd p v)) + -2 * sg * (z p * z (padd p v)))%R by ring. rewrite Hsg. ring. }
    rewrite !Rsum_plus, Rsum_scal. fold S. ring. }
  assert (HG : (S / (INR L * INR L) <= G)%R).
  { apply (Rmult_le_reg_l (INR L * INR L)); [nra|]. replace (INR L * INR L * (S / (INR L * INR L)))%R with S by (field; lra). exact P. }
  replace ((1 - / (2 * (INR L * INR L))) * S)%R with (S - (S / (INR L * INR L)) / 2)%R by (field; lra). lra.
Qed.
End Poincare.

(** every side of the box has at most [L] points *)
Definition sides_at_most (b : rect) (L : nat) : Prop := forall i, i < length (lo b) -> (nth i (hi b) 0 - nth i (lo b) 0 + 1 <= Z.of_nat L)%Z.
Lemma side_leaves b v L : sides_at_most b L -> length v = length (lo b) -> is_origin v = false -> forall p, in_box b p -> ~ in_box b (shift v L p).
Proof.
  intros HL Hv Ho p Hp C. destruct (not_origin_nth v Ho) as [i [Hi Hn]].
  assert (Lp : length p = length v) by (destruct Hp as [Hp _]; congruence).
  destruct (@shift_nth v L p i Lp Hi) as [E EL]. destruct C as [_ [_ C]]. rewrite EL in C. specialize (C i Hi). rewrite E in C.
  destruct Hp as [_ [_ Hp]]. rewrite Lp in Hp. specialize (Hp i Hi). specialize (HL i). rewrite Hv in Hi. specialize (HL Hi). nia.
Qed.
(** Rayleigh quotients of a weakly dominant stencil: with w the sum of the absolute values of the entries off the centre
    entry c, they lie between c - w + w/(2 L^2) and 2c. *)
Theorem stencil_rayleigh o b offs L x : nonempty_box b -> offsets_dim b offs -> dominant_stencil b offs -> sides_at_most b L -> 0 < L ->
  let norm := Rsum (fun p => x p * x p)%R (box_points o b) in
  let form := Rsum (fun p => x p * convolve b offs x p)%R (box_points o b) in
  ((centre b offs - off_centre_weight offs + off_centre_weight offs / (2 * (INR L * INR L))) * norm <= form <= 2 * centre b offs * norm)%R.
Proof.
  intros Hne Hd [H0 H1] HL HL0 norm form. assert (Hwf := nonempty_wf _ Hne). unfold form. rewrite (quadratic_form o Hwf x offs).
  set (z := zero_outside b x). set (pts := box_points o b) in *. set (D := fun v => Rsum (fun p => z p * z (padd p v))%R pts).
  change (Rsum (fun oe => snd oe * Rsum (fun p => zero_outside b x p * zero_outside b x (padd p (fst oe))) pts)%R offs) with (Rsum (fun oe => snd oe * D (fst oe))%R offs).
  assert (Ez : norm = Rsum (fun p => z p * z p)%R pts).
  { apply Rsum_ext. intros p Hp. unfold z, zero_outside. apply (in_box_points o b _ Hwf), contains_iff in Hp. rewrite Hp. reflexivity. }
  assert (Hdim : forall oe, In oe offs -> length (fst oe) = length (lo b)) by (unfold offsets_dim in Hd; rewrite Forall_forall in Hd; exact Hd).
  assert (HS : (0 <= norm)%R) by (apply Rsum_nonneg; intros; apply Rle_0_sqr).
  assert (HLp : (0 < INR L)%R) by (apply lt_0_INR; exact HL0).
  set (g := (/ (2 * (INR L * INR L)))%R). assert (Hg : (0 < g)%R) by (unfold g; apply Rinv_0_lt_compat; nra).
  assert (D0 : forall v, length v = length (lo b) -> is_origin v = true -> D v = norm).
  { intros v Hv Ho. apply (is_origin_spec b v Hv) in Ho. subst v. rewrite Ez. apply Rsum_ext. intros q Hq. apply (in_box_points o b q Hwf) in Hq. rewrite padd_origin by apply Hq. reflexivity. }
  assert (D1 : forall v, length v = length (lo b) -> is_origin v = false -> (Rabs (D v) <= (1 - g) * norm)%R).
  { intros v Hv Ho. assert (Hl := @side_leaves b v L HL Hv Ho).
    assert (P1 := @product_gap o b Hwf x v Hv L Hl 1%R ltac:(ring) HL0). assert (P2 := @product_gap o b Hwf x v Hv L Hl (-1)%R ltac:(ring) HL0).
    fold z pts in P1, P2. change (Rsum (fun p => z p * z (padd p v))%R pts) with (D v) in P1, P2. rewrite <- Ez in P1, P2. fold g in P1, P2. apply Rabs_le. lra. }
  assert (Low : forall l, (forall oe, In oe l -> length (fst oe) = length (lo b)) ->
     (Rsum (fun oe => if is_origin (fst oe) then snd oe else 0) l * norm - Rsum (fun oe => if is_origin (fst oe) then 0 else Rabs (snd oe)) l * ((1 - g) * norm) <= Rsum (fun oe => snd oe * D (fst oe)) l)%R /\
     (Rsum (fun oe => snd oe * D (fst oe)) l <= Rsum (fun oe => if is_origin (fst oe) then snd oe else 0) l * norm + Rsum (fun oe => if is_origin (fst oe) then 0 else Rabs (snd oe)) l * norm)%R).
  { induction l as [|[v e] l IH]; intros Hl; [rewrite !Rsum_nil; lra|].
    rewrite !Rsum_cons. cbn [fst snd]. destruct IH as [IH1 IH2]; [intros; apply Hl; right; assumption|].
    assert (Hv : length v = length (lo b)) by (apply (Hl (v, e)); left; reflexivity). destruct (is_origin v) eqn:Ho.
    - rewrite (D0 v Hv Ho). nra.
    - assert (B := D1 v Hv Ho).
      assert (K : (Rabs (e * D v) <= Rabs e * ((1 - g) * norm))%R) by (rewrite Rabs_mult; apply Rmult_le_compat_l; [apply Rabs_pos|exact B]).
      assert (K2 : (- Rabs (e * D v) <= e * D v <= Rabs (e * D v))%R) by (unfold Rabs; destruct (Rcase_abs (e * D v)); lra).
      assert (Ae := Rabs_pos e). assert (0 <= Rabs e * norm)%R by (apply Rmult_le_pos; assumption).
      assert (0 <= Rabs e * norm * g)%R by (apply Rmult_le_pos; lra). split; nra. }
  destruct (Low offs Hdim) as [Lw Ls]. unfold off_centre_weight, Rdiv in *. fold g. rewrite centre_sum in * by exact Hd.
  set (c := Rsum (fun oe => if is_origin (fst oe) then snd oe else 0%R) offs) in *. set (w := Rsum (fun oe => if is_origin (fst oe) then 0%R else Rabs (snd oe)) offs) in *.
  split; [eapply Rle_trans; [right|exact Lw]; ring|]. assert (w * norm <= c * norm)%R by (apply Rmult_le_compat_r; assumption). eapply Rle_trans; [exact Ls|]. lra.
Qed.
