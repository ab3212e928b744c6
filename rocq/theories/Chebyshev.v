(** Chebyshev: the classical convergence bound of methods that minimise the energy norm over Krylov spaces.
    No eigenvalues are used: for a symmetric operator A with m |x|^2 <= x.Ax <= M |x|^2 the operator
    B = ((M+m) - 2A)/(M-m) satisfies 1 - B^2 >= 0 in the energy inner product, and
    T_k(B)^2 + (1 - B^2) U_{k-1}(B)^2 = 1. *)
From Coq Require Import Reals Lra FunctionalExtensionality.
From Verif Require Import Base ExactSum LinAlg.
Set Implicit Arguments.
Local Open Scope R_scope.

Section Chebyshev.
Variable P : Type.
Variable U : list P.
Variable a : P -> P -> R.
Variables m M : R.
Notation A := (app_op U a).
Notation "⟨ f , g ⟩" := (ip U f g).
Hypothesis Hsym : symmetric U a.
Hypothesis Hm : 0 < m.
Hypothesis HmM : m < M.
Hypothesis Hlow : forall x, m * ⟨x, x⟩ <= ⟨x, A x⟩.
Hypothesis Hhigh : forall x, ⟨x, A x⟩ <= M * ⟨x, x⟩.

Lemma A_add x y : A (vadd x y) = vadd (A x) (A y).
Proof. apply functional_extensionality. intros u. apply app_add. Qed.
Lemma A_sub x y : A (vsub x y) = vsub (A x) (A y).
Proof. apply functional_extensionality. intros u. apply app_sub. Qed.
Lemma A_scal c x : A (vscal c x) = vscal c (A x).
Proof. apply functional_extensionality. intros u. apply app_scal. Qed.
Lemma A_self x y : ⟨x, A y⟩ = ⟨A x, y⟩.
Proof. apply symmetric_ip. exact Hsym. Qed.
Ltac expand := rewrite ?A_add, ?A_sub, ?A_scal; repeat rewrite ?ip_add_l, ?ip_add_r, ?ip_sub_l, ?ip_sub_r, ?ip_scal_l, ?ip_scal_r.

Lemma square_above w : ⟨A w, A w⟩ <= M * ⟨w, A w⟩.
Proof.
  assert (H1 := Hhigh (A w)). assert (H2 := Hlow (vsub (vscal M w) (A w))).
  assert (P2 := ip_pos U (vsub (vscal M w) (A w))).
  revert H2 P2. expand. rewrite (ip_sym U (A w) w), (A_self w (A w)). intros. nra.
Qed.
Lemma square_below v : m * ⟨v, A v⟩ <= ⟨A v, A v⟩.
Proof.
  assert (P1 := ip_pos U (vsub (A v) (vscal m v))). assert (L := Hlow v).
  revert P1. expand. rewrite (ip_sym U (A v) v). intros. nra.
Qed.
(** x.A(A-m)(M-A)x >= 0 *)
Lemma product_nonneg f : 0 <= (M + m) * ⟨A f, A f⟩ - ⟨A f, A (A f)⟩ - m * M * ⟨f, A f⟩.
Proof.
  assert (H1 := square_above (vsub (A f) (vscal m f))). assert (H2 := square_below (vsub (vscal M f) (A f))).
  revert H1 H2. expand. rewrite (ip_sym U (A (A f)) (A f)). rewrite (A_self f (A f)). intros.
  set (m1 := ⟨f, A f⟩) in *. set (m2 := ⟨A f, A f⟩) in *. set (m3 := ⟨A f, A (A f)⟩) in *. set (m4 := ⟨A (A f), A (A f)⟩) in *.
  assert (0 <= (M - m) * ((M + m) * m2 - m3 - m * M * m1)) by nra.
  destruct (Rle_or_lt 0 ((M + m) * m2 - m3 - m * M * m1)) as [L|L]; [exact L|]. nra.
Qed.

Definition s : R := (M + m) / (M - m).
Definition c : R := 2 / (M - m).
Definition B (f : P -> R) : P -> R := vsub (vscal s f) (vscal c (A f)).
Definition C (f : P -> R) : P -> R := vsub f (B (B f)).
Definition eip (f g : P -> R) : R := ⟨f, A g⟩.
Lemma eip_sym f g : eip f g = eip g f.
Proof. unfold eip. rewrite A_self. apply ip_sym. Qed.
Lemma eip_add_l f g h : eip (vadd f g) h = eip f h + eip g h. Proof. apply ip_add_l. Qed.
Lemma eip_sub_l f g h : eip (vsub f g) h = eip f h - eip g h. Proof. apply ip_sub_l. Qed.
Lemma eip_scal_l k f h : eip (vscal k f) h = k * eip f h. Proof. apply ip_scal_l. Qed.
Lemma eip_add_r f g h : eip h (vadd f g) = eip h f + eip h g. Proof. rewrite !(eip_sym h). apply eip_add_l. Qed.
Lemma eip_sub_r f g h : eip h (vsub f g) = eip h f - eip h g. Proof. rewrite !(eip_sym h). apply eip_sub_l. Qed.
Lemma eip_scal_r k f h : eip h (vscal k f) = k * eip h f. Proof. rewrite !(eip_sym h). apply eip_scal_l. Qed.
Lemma A_eip f g : eip (A f) g = eip f (A g).
Proof. unfold eip. rewrite <- A_self. reflexivity. Qed.
Lemma B_self f g : eip (B f) g = eip f (B g).
Proof. unfold B. rewrite eip_sub_l, eip_sub_r, !eip_scal_l, !eip_scal_r, A_eip. reflexivity. Qed.
Lemma B_add f g : B (vadd f g) = vadd (B f) (B g).
Proof. apply functional_extensionality. intros u. unfold B. rewrite A_add. unfold vsub, vscal, vadd. ring. Qed.
Lemma B_sub f g : B (vsub f g) = vsub (B f) (B g).
Proof. apply functional_extensionality. intros u. unfold B. rewrite A_sub. unfold vsub, vscal. ring. Qed.
Lemma B_zero : B (fun _ => 0) = (fun _ => 0).
Proof.
  apply functional_extensionality. intros u. unfold B, vsub, vscal, app_op. rewrite (Rsum_ext _ (fun _ => 0)) by (intros; ring). rewrite Rsum_zero. ring.
Qed.
Lemma C_nonneg f : 0 <= eip f (C f).
Proof.
  unfold C. rewrite eip_sub_r, <- B_self. unfold B. rewrite eip_sub_l, !eip_sub_r, !eip_scal_l, !eip_scal_r.
  assert (H := product_nonneg f).
  rewrite (eip_sym (A f) f). unfold eip in *. rewrite (A_self f (A f)).
  set (m1 := ⟨f, A f⟩) in *. set (m2 := ⟨A f, A f⟩) in *. set (m3 := ⟨A f, A (A f)⟩) in *.
  match goal with |- 0 <= ?x => replace x with (c * c * ((M + m) * m2 - m3 - m * M * m1)) by (unfold s, c; field; lra) end.
  apply Rmult_le_pos; [|exact H]. assert (0 < c) by (unfold c; apply Rdiv_lt_0_compat; lra). nra.
Qed.

(** T_k(B) e and U_{k-1}(B) e *)
Variable e : P -> R.
Fixpoint cheb (k : nat) : (P -> R) * (P -> R) :=
  match k with
  | O => (e, fun _ => 0)
  | S k' => let (t, u) := cheb k' in (vsub (B t) (C u), vadd t (B u))
  end.
(** their values at 0 *)
Fixpoint chv (k : nat) : R * R :=
  match k with
  | O => (1, 0)
  | S k' => let (t, u) := chv k' in (s * t - (1 - s * s) * u, t + s * u)
  end.
Lemma pythagoras k : eip (fst (cheb k)) (fst (cheb k)) + eip (snd (cheb k)) (C (snd (cheb k))) = eip e e.
Proof.
  induction k as [|k IH].
  - cbn. assert (Z : eip (fun _ => 0) (C (fun _ => 0)) = 0) by (unfold eip; apply vzero_ip; intros u _; reflexivity). rewrite Z. ring.
  - rewrite <- IH. cbn [cheb]. destruct (cheb k) as [t u]. cbn [fst snd]. clear IH.
    unfold C. rewrite ?B_add.
    repeat (rewrite ?eip_add_l, ?eip_add_r, ?eip_sub_l, ?eip_sub_r, <- ?B_self, ?B_add).
    assert (E0 : eip u t = eip t u) by apply eip_sym.
    assert (E1 : eip (B u) t = eip (B t) u) by (rewrite eip_sym, <- !B_self; reflexivity).
    assert (E2 : eip (B (B u)) t = eip (B (B t)) u) by (rewrite eip_sym, <- !B_self; reflexivity).
    assert (E3 : eip (B (B (B u))) t = eip (B (B (B t))) u) by (rewrite eip_sym, <- !B_self; reflexivity).
    rewrite ?E0, ?E1, ?E2, ?E3. ring.
Qed.
Theorem energy_contracts k : eip (fst (cheb k)) (fst (cheb k)) <= eip e e.
Proof. assert (H := pythagoras k). assert (N := C_nonneg (snd (cheb k))). lra. Qed.

(** *** T_k(B) e = T_k(s) e - (an element of the k-th Krylov space) *)
Variable b : P -> R.
Hypothesis Hb : veq U (A e) b.
Variable K : nat -> P -> R.
Hypothesis K0 : veq U (K 0) b.
Hypothesis KS : forall i, veq U (K (S i)) (A (K i)).
Definition span (n : nat) (f : P -> R) : Prop := exists d : nat -> R, veq U f (fun u => Rsum (fun i => d i * K i u) (seq 0 n)).
Lemma span_ext n f g : veq U f g -> span n g -> span n f.
Proof. intros H [d D]. exists d. intros u Hu. rewrite (H u Hu). apply D. exact Hu. Qed.
Lemma span_lin n f g x y : span n f -> span n g -> span n (fun u => x * f u + y * g u).
Proof.
  intros [d D] [d' D']. exists (fun i => x * d i + y * d' i). intros u Hu. rewrite (D u Hu), (D' u Hu), <- !Rsum_scal, <- Rsum_plus.
  apply Rsum_ext. intros i _. ring.
Qed.
Lemma span_mono n n' f : (n <= n')%nat -> span n f -> span n' f.
Proof.
  intros Hn [d D]. exists (fun i => if Nat.ltb i n then d i else 0). intros u Hu. rewrite (D u Hu).
  replace n' with (n + (n' - n))%nat by lia. rewrite seq_app, Rsum_app. cbn [Nat.add].
  rewrite (Rsum_ext (fun i => (if Nat.ltb i n then d i else 0) * K i u) (fun i => d i * K i u) (seq 0 n)).
  2:{ intros i Hi. apply in_seq in Hi. destruct (Nat.ltb_spec i n); [reflexivity|lia]. }
  rewrite (Rsum_ext (fun i => (if Nat.ltb i n then d i else 0) * K i u) (fun _ => 0) (seq n (n' - n))).
  2:{ intros i Hi. apply in_seq in Hi. destruct (Nat.ltb_spec i n); [lia|ring]. }
  rewrite Rsum_zero. ring.
Qed.
Lemma span_A n f : span n f -> span (S n) (A f).
Proof.
  intros [d D]. exists (fun i => match i with O => 0 | S j => d j end). intros u Hu.
  cbn [seq]. rewrite Rsum_cons, Rmult_0_l, Rplus_0_l, <- seq_shift, Rsum_map.
  transitivity (A (fun u => Rsum (fun i => d i * K i u) (seq 0 n)) u).
  { apply app_ext. exact D. }
  unfold app_op. transitivity (Rsum (fun v => Rsum (fun i => a u v * (d i * K i v)) (seq 0 n)) U).
  { apply Rsum_ext. intros v _. rewrite <- Rsum_scal. reflexivity. }
  rewrite Rsum_swap. apply Rsum_ext. intros i _. rewrite (KS i u Hu). unfold app_op. rewrite <- Rsum_scal. apply Rsum_ext. intros v _. ring.
Qed.
Lemma span_b : span 1 b.
Proof. exists (fun _ => 1). intros u Hu. cbn [seq]. rewrite Rsum_cons, Rsum_nil, (K0 u Hu). ring. Qed.
Definition poly (n : nat) (y : R) (f : P -> R) : Prop := span n (fun u => y * e u - f u).
Lemma poly_mono n n' y f : (n <= n')%nat -> poly n y f -> poly n' y f.
Proof. apply span_mono. Qed.
Lemma poly_lin n y f y' f' x x' : poly n y f -> poly n y' f' -> poly n (x * y + x' * y') (fun u => x * f u + x' * f' u).
Proof. intros H H'. eapply span_ext; [|exact (span_lin x x' H H')]. intros u _. cbn. ring. Qed.
Lemma poly_B n y f : poly n y f -> poly (S n) (s * y) (B f).
Proof.
  intros H. assert (H1 := span_A H).
  assert (H2 := span_lin s c (span_mono (le_S _ _ (le_n n)) H) (span_lin y (-1) (span_mono (le_n_S 0 n (Nat.le_0_l n)) span_b) H1)).
  eapply span_ext; [|exact H2]. intros u Hu. cbn. unfold B, vsub, vscal.
  assert (E : A (fun v => y * e v - f v) u = y * b u - A f u).
  { change (fun v => y * e v - f v) with (vsub (vscal y e) f). rewrite app_sub, app_scal, (Hb u Hu). reflexivity. }
  rewrite E. ring.
Qed.
Lemma cheb_poly k : poly (S k) (fst (chv (S k))) (fst (cheb (S k))) /\ poly k (snd (chv (S k))) (snd (cheb (S k))).
Proof.
  assert (Pe : forall n, poly n 1 e).
  { intros n. exists (fun _ => 0). intros u _. rewrite (Rsum_ext _ (fun _ => 0)) by (intros; ring). rewrite Rsum_zero. ring. }
  assert (Pz : forall n, poly n 0 (fun _ => 0)).
  { intros n. exists (fun _ => 0). intros u _. rewrite (Rsum_ext _ (fun _ => 0)) by (intros; ring). rewrite Rsum_zero. ring. }
  induction k as [|k [IH1 IH2]].
  - cbn [cheb chv fst snd]. split.
    + eapply span_ext; [|exact (poly_B (Pe 0%nat))]. intros u _. unfold C. rewrite !B_zero. unfold vsub. cbn. ring.
    + eapply span_ext; [|exact (Pe 0%nat)]. intros u _. rewrite B_zero. unfold vadd. cbn. ring.
  - remember (chv (S k)) as yt eqn:Ey. remember (cheb (S k)) as ft eqn:Ef. destruct yt as [y z], ft as [t w]. cbn [fst snd] in *.
    cbn [cheb chv]. cbn [cheb chv] in Ey, Ef. rewrite <- Ey, <- Ef. cbn [fst snd]. split.
    + assert (H1 := poly_B IH1). assert (H2 := poly_mono (le_S _ _ (le_S _ _ (le_n k))) IH2). assert (H3 := poly_B (poly_B IH2)).
      assert (H4 := poly_lin 1 1 H1 (poly_lin (-1) 1 H2 H3)).
      eapply span_ext; [|exact H4]. intros u _. cbn. unfold C, vsub. ring.
    + assert (H1 := poly_lin 1 1 IH1 (poly_B IH2)). eapply span_ext; [|exact H1]. intros u _. cbn. unfold vadd. ring.
Qed.

(** *** the value T_k(s) *)
Definition rho : R := (sqrt M - sqrt m) / (sqrt M + sqrt m).
Lemma roots : 0 < sqrt m /\ sqrt m < sqrt M /\ sqrt m * sqrt m = m /\ sqrt M * sqrt M = M.
Proof.
  repeat split.
  - apply sqrt_lt_R0. exact Hm.
  - apply sqrt_lt_1; lra.
  - apply sqrt_sqrt. lra.
  - apply sqrt_sqrt. lra.
Qed.
Lemma rho_range : 0 < rho < 1.
Proof.
  destruct roots as [R1 [R2 _]]. unfold rho. split; [apply Rdiv_lt_0_compat; lra|].
  apply (Rmult_lt_reg_r (sqrt M + sqrt m)); [lra|]. unfold Rdiv. rewrite Rmult_assoc, Rinv_l by lra. lra.
Qed.
Lemma chv_value k : fst (chv k) = ((/ rho) ^ k + rho ^ k) / 2.
Proof.
  destruct roots as [R1 [R2 [R3 R4]]]. assert (Hr := rho_range).
  set (w := 2 * (sqrt M * sqrt m) / (M - m)).
  assert (Q1 : s + w = / rho).
  { unfold s, w, rho. replace M with (sqrt M * sqrt M) at 1 2 4 by exact R4. replace m with (sqrt m * sqrt m) at 1 2 4 by exact R3.
    field. repeat split; nra. }
  assert (Q2 : s - w = rho).
  { unfold s, w, rho. replace M with (sqrt M * sqrt M) at 1 2 4 by exact R4. replace m with (sqrt m * sqrt m) at 1 2 4 by exact R3.
    field. repeat split; nra. }
  assert (G : fst (chv k) + w * snd (chv k) = (/ rho) ^ k /\ fst (chv k) - w * snd (chv k) = rho ^ k).
  { induction k as [|k [I1 I2]]; [cbn; split; ring|]. cbn [chv pow]. rewrite <- I1, <- I2. destruct (chv k) as [x y]. cbn [fst snd].
    assert (E : s * s - 1 = w * w).
    { replace (w * w) with (((s + w) - (s - w)) * ((s + w) - (s - w)) / 4) by field. replace (s * s) with (((s + w) + (s - w)) * ((s + w) + (s - w)) / 4) by field.
      rewrite Q1, Q2. field. lra. }
    replace (1 - s * s) with (- (w * w)) by lra. rewrite <- Q1, <- Q2. split; ring. }
  destruct G as [G1 G2]. rewrite <- G1, <- G2. field.
Qed.

(** the competitor: an element of the k-th Krylov space with small energy error *)
Theorem chebyshev_competitor k : exists d : nat -> R,
  eip (fun u => e u - Rsum (fun i => d i * K i u) (seq 0 k)) (fun u => e u - Rsum (fun i => d i * K i u) (seq 0 k)) <= 4 * (rho * rho) ^ k * eip e e.
Proof.
  assert (He : 0 <= eip e e) by (unfold eip; assert (L := Hlow e); assert (N := ip_pos U e); nra).
  destruct k as [|k].
  - exists (fun _ => 0). cbn [pow]. match goal with |- ?x <= _ => replace x with (eip e e) end; [lra|].
    unfold eip. assert (V : veq U e (fun u => e u - Rsum (fun i => 0 * K i u) (seq 0 0))) by (intros u _; cbn [seq]; rewrite Rsum_nil; ring).
    apply ip_ext; [exact V|]. intros u _. apply app_ext. exact V.
  - destruct (cheb_poly k) as [[d D] _]. assert (T := energy_contracts (S k)).
    set (t := fst (cheb (S k))) in *. set (y := fst (chv (S k))) in *.
    assert (Hr := rho_range).
    assert (Ey : y = ((/ rho) ^ S k + rho ^ S k) / 2) by apply chv_value.
    assert (Hp : 0 < rho ^ S k) by (apply pow_lt; lra).
    assert (Hinv : (/ rho) ^ S k = / (rho ^ S k)) by (apply pow_inv).
    set (q := rho ^ S k) in *. assert (Hq : 0 < / q) by (apply Rinv_0_lt_compat; exact Hp).
    assert (Hy : / q / 2 <= y) by (rewrite Ey, Hinv; lra).
    exists (fun i => / y * d i).
    assert (V : veq U (fun u => e u - Rsum (fun i => / y * d i * K i u) (seq 0 (S k))) (vscal (/ y) t)).
    { intros u Hu. specialize (D u Hu). cbn beta in D. unfold vscal.
      rewrite (Rsum_ext _ (fun i => / y * (d i * K i u))) by (intros; ring). rewrite Rsum_scal, <- D. field. lra. }
    match goal with |- ?x <= _ => replace x with (eip (vscal (/ y) t) (vscal (/ y) t)) end.
    2:{ unfold eip. apply ip_ext; [intros u Hu; symmetry; apply V; exact Hu|]. intros u Hu. apply app_ext. intros v Hv. symmetry. apply V; exact Hv. }
    rewrite eip_scal_l, eip_scal_r.
    assert (Hyy : / y * / y <= 4 * (q * q)).
    { assert (H1 : / y <= 2 * q).
      { replace (2 * q) with (/ (/ q / 2)) by (field; lra). apply Rinv_le_contravar; [lra|exact Hy]. }
      assert (0 < / y) by (apply Rinv_0_lt_compat; lra). nra. }
    replace ((rho * rho) ^ S k) with (q * q) by (unfold q; rewrite Rpow_mult_distr; reflexivity).
    assert (0 <= eip t t) by (unfold eip; assert (L := Hlow t); assert (N := ip_pos U t); nra).
    assert (0 < / y) by (apply Rinv_0_lt_compat; lra).
    replace (/ y * (/ y * eip t t)) with (/ y * / y * eip t t) by ring.
    apply Rle_trans with (4 * (q * q) * eip t t); [apply Rmult_le_compat_r; assumption|]. apply Rmult_le_compat_l; [nra|exact T].
Qed.
End Chebyshev.
