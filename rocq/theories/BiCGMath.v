(** BiCGMath: theory of the textbook BiCGStab iteration: finite termination. *)
From Coq Require Import Reals Lra FunctionalExtensionality.
From Verif Require Import Base ExactSum LinAlg BiCGSpec.
Set Implicit Arguments.
Local Open Scope R_scope.

(** ** Triangular systems: w_0 .. w_(k-1) and z_0 .. z_(k-1) with <w_i,z_j> = 0 for i < j and <w_i,z_i> <> 0 have at
    most as many members as there are unknowns. *)
Section Triangular.
Variable P : Type.
Variable dec : forall a b : P, {a = b} + {a <> b}.
Variable U : list P.
Hypothesis Hnd : NoDup U.
Notation "⟨ f , g ⟩" := (ip U f g) (f at level 199, g at level 199).
Variables w z : nat -> P -> R.

Definition proj (gs : list (P -> R)) (f : P -> R) : P -> R := fun u => Rsum (fun g => ⟨f, g⟩ / ⟨g, g⟩ * g u) gs.
Lemma ip_proj gs f h : ⟨proj gs f, h⟩ = Rsum (fun g => ⟨f, g⟩ / ⟨g, g⟩ * ⟨g, h⟩) gs.
Proof.
  unfold proj. unfold ip at 1. transitivity (Rsum (fun u => Rsum (fun g => ⟨f, g⟩ / ⟨g, g⟩ * g u * h u) gs) U).
  - apply Rsum_ext. intros u _. rewrite Rmult_comm, <- Rsum_scal. apply Rsum_ext. intros; ring.
  - rewrite Rsum_swap. apply Rsum_ext. intros g _. change (ip U g h) with (Rsum (fun u => g u * h u) U). rewrite <- Rsum_scal. apply Rsum_ext. intros; ring.
Qed.
Lemma proj_self gs f h : orthogonal U gs -> In h gs -> ⟨proj gs f, h⟩ = ⟨f, h⟩.
Proof.
  rewrite ip_proj. induction gs as [|g gs IH]; intros Ho Hh; [destruct Hh|]. rewrite Rsum_cons. destruct Ho as [N [O Hr]]. destruct Hh as [<-|Hh].
  - rewrite (Rsum_ext _ (fun _ => 0)); [rewrite Rsum_zero; field; exact N|]. intros h Hh. rewrite (ip_sym U h g), (O h Hh). ring.
  - rewrite (IH Hr Hh), (O h Hh). ring.
Qed.
Lemma gram_schmidt k : (forall i j, (i < j)%nat -> (j <= k)%nat -> ⟨w i, z j⟩ = 0) -> (forall i, (i < k)%nat -> ⟨w i, z i⟩ <> 0) ->
  forall m, (m <= k)%nat -> exists gs, length gs = m /\ orthogonal U gs /\ forall g j, In g gs -> (m <= j)%nat -> (j <= k)%nat -> ⟨g, z j⟩ = 0.
Proof.
  intros H0 H1. induction m as [|m IH]; intros Hm; [exists []; split; [reflexivity|]; split; [exact I|]; intros g j []|].
  destruct IH as (gs & L & O & Z); [lia|]. set (g := vsub (w m) (proj gs (w m))).
  assert (Gz : forall j, (m <= j)%nat -> (j <= k)%nat -> ⟨g, z j⟩ = ⟨w m, z j⟩).
  { intros j Hj Hk. unfold g. rewrite ip_sub_l, ip_proj. rewrite (Rsum_ext _ (fun _ => 0)); [rewrite Rsum_zero; ring|]. intros h Hh. rewrite (Z h j Hh Hj Hk). ring. }
  exists (g :: gs). split; [cbn; lia|]. split.
  - cbn [orthogonal]. split; [|split; [|exact O]].
    + intros C. apply (H1 m); [lia|]. rewrite <- Gz by lia. apply vzero_ip. apply ip_zero. exact C.
    + intros h Hh. unfold g. rewrite ip_sub_l, (@proj_self gs (w m) h O Hh). ring.
  - intros h j [<-|Hh] Hj Hk; [rewrite Gz by lia; apply H0; lia|]. apply Z; [exact Hh|lia|exact Hk].
Qed.
Theorem triangular_length k : (forall i j, (i < j)%nat -> (j < k)%nat -> ⟨w i, z j⟩ = 0) -> (forall i, (i < k)%nat -> ⟨w i, z i⟩ <> 0) ->
  (k <= length U)%nat.
Proof.
  intros H0 H1. destruct k as [|k]; [lia|]. destruct (@gram_schmidt k) with (m := k) as (gs & L & O & Z); [intros; apply H0; lia|intros; apply H1; lia|lia|].
  assert (O' : orthogonal U (z k :: gs)).
  { cbn [orthogonal]. split; [|split; [|exact O]].
    - intros C. apply (H1 k); [lia|]. rewrite ip_sym. apply vzero_ip. apply ip_zero. exact C.
    - intros g Hg. rewrite ip_sym. apply (Z g k Hg); lia. }
  apply (orthogonal_length dec) in O'; [|exact Hnd]. cbn in O'. lia.
Qed.
End Triangular.

Section BiCG.
Variable P : Type.
Variable U : list P.
Variable a : P -> P -> R.
Variables x0 b : P -> R.
Notation "⟨ f , g ⟩" := (ip U f g) (f at level 199, g at level 199).
Notation A := (app_op U a).
Notation t k := (bicg_iter U a x0 b k).
Notation om k := (b_omega' U a b (t k)).
Notation al k := (b_alpha' U a b (t k)).
Notation be k := (b_beta U b (t k)).

Lemma A_add f g : A (vadd f g) = vadd (A f) (A g).
Proof. apply functional_extensionality. intros u. apply app_add. Qed.
Lemma A_sub f g : A (vsub f g) = vsub (A f) (A g).
Proof. apply functional_extensionality. intros u. apply app_sub. Qed.
Lemma A_scal c f : A (vscal c f) = vscal c (A f).
Proof. apply functional_extensionality. intros u. apply app_scal. Qed.

Fixpoint pow (i : nat) (f : P -> R) : P -> R := match i with O => f | S i' => A (pow i' f) end.
Lemma pow_A i f : pow i (A f) = A (pow i f).
Proof. induction i as [|i IH]; [reflexivity|]. cbn [pow]. rewrite IH. reflexivity. Qed.
Lemma pow_add i f g : pow i (vadd f g) = vadd (pow i f) (pow i g).
Proof. induction i as [|i IH]; [reflexivity|]. cbn [pow]. rewrite IH. apply A_add. Qed.
Lemma pow_sub i f g : pow i (vsub f g) = vsub (pow i f) (pow i g).
Proof. induction i as [|i IH]; [reflexivity|]. cbn [pow]. rewrite IH. apply A_sub. Qed.
Lemma pow_scal i c f : pow i (vscal c f) = vscal c (pow i f).
Proof. induction i as [|i IH]; [reflexivity|]. cbn [pow]. rewrite IH. apply A_scal. Qed.

(** the stabilising polynomial (1 - omega_(k-1) A) ... (1 - omega_0 A) *)
Fixpoint psi (k : nat) (f : P -> R) : P -> R :=
  match k with O => f | S k' => vsub (psi k' f) (vscal (om k') (A (psi k' f))) end.
Lemma psi_A k f : psi k (A f) = A (psi k f).
Proof. induction k as [|k IH]; [reflexivity|]. cbn [psi]. rewrite IH, A_sub, A_scal. reflexivity. Qed.
Lemma psi_lin k f c g : psi k (vadd f (vscal c g)) = vadd (psi k f) (vscal c (psi k g)).
Proof.
  induction k as [|k IH]; [reflexivity|]. cbn [psi]. rewrite IH, A_add, A_scal. apply functional_extensionality. intros u. unfold vsub, vadd, vscal. ring.
Qed.
Lemma psi_zero k f : vzero U f -> vzero U (psi k f).
Proof.
  intros Hf. induction k as [|k IH]; [exact Hf|]. intros u Hu. cbn [psi]. unfold vsub, vscal. rewrite (IH u Hu).
  replace (A (psi k f) u) with 0; [ring|]. symmetry. unfold app_op. rewrite (Rsum_ext _ (fun _ => 0)); [apply Rsum_zero|]. intros v Hv. rewrite (IH v Hv). ring.
Qed.
Fixpoint W (k : nat) : R := match k with O => 1 | S k' => - om k' * W k' end.
Lemma psi_leading k : forall g, (forall i, (i < k)%nat -> ⟨b, pow i g⟩ = 0) -> ⟨b, psi k g⟩ = W k * ⟨b, pow k g⟩.
Proof.
  induction k as [|k IH]; intros g H; [cbn [psi W pow]; ring|]. cbn [psi W]. rewrite ip_sub_r, ip_scal_r, <- psi_A.
  rewrite (IH g) by (intros; apply H; lia). rewrite (IH (A g)) by (intros i Hi; rewrite pow_A; apply (H (S i)); lia).
  rewrite (H k) by lia. rewrite pow_A. cbn [pow]. ring.
Qed.

(** the underlying BiCG residuals and directions *)
Fixpoint bicg_pair (k : nat) : (P -> R) * (P -> R) :=
  match k with
  | O => (b, b)
  | S k' => let '(f, g) := bicg_pair k' in let f' := vadd f (vscal (- al k') (A g)) in (f', vadd f' (vscal (be (S k')) g))
  end.
Notation phi k := (fst (bicg_pair k)).
Notation pi k := (snd (bicg_pair k)).
Lemma phi_next k : phi (S k) = vadd (phi k) (vscal (- al k) (A (pi k))).
Proof. cbn [bicg_pair]. destruct (bicg_pair k). reflexivity. Qed.
Lemma pi_next k : pi (S k) = vadd (phi (S k)) (vscal (be (S k)) (pi k)).
Proof. cbn [bicg_pair]. destruct (bicg_pair k). reflexivity. Qed.

Lemma factor k : b_r (t k) = psi k (phi k) /\ b_p' U b (t k) = psi k (pi k).
Proof.
  induction k as [|k [I1 I2]].
  - split; [reflexivity|]. apply functional_extensionality. intros u. unfold b_p'. cbn. ring.
  - assert (Es : b_s U a b (t k) = psi k (phi (S k))).
    { rewrite phi_next, psi_lin, psi_A, <- I1, <- I2. apply functional_extensionality. intros u. unfold b_s, b_v', vadd, vscal. ring. }
    assert (Er : b_r (t (S k)) = psi (S k) (phi (S k))).
    { cbn [bicg_iter bicg_next b_r psi]. unfold b_t. rewrite Es. reflexivity. }
    split; [exact Er|]. rewrite pi_next, psi_lin, <- Er. apply functional_extensionality. intros u.
    unfold b_p' at 1. cbn [psi]. rewrite <- I2. unfold vadd, vscal, vsub. cbn [bicg_iter bicg_next b_p b_v b_omega]. unfold b_v'. reflexivity.
Qed.

Definition F k := ⟨b, pow k (phi k)⟩.
Definition G k := ⟨b, pow (S k) (pi k)⟩.
Definition orth_phi k := forall i, (i < k)%nat -> ⟨b, pow i (phi k)⟩ = 0.
Definition orth_pi k := forall i, (i < k)%nat -> ⟨b, pow (S i) (pi k)⟩ = 0.
Lemma rho_F k : orth_phi k -> b_rho' U b (t k) = W k * F k.
Proof. intros H. unfold b_rho'. rewrite (proj1 (factor k)). apply psi_leading. exact H. Qed.
Lemma v_G k : orth_pi k -> ⟨b, b_v' U a b (t k)⟩ = W k * G k.
Proof.
  intros H. unfold b_v'. rewrite (proj2 (factor k)), <- psi_A. rewrite psi_leading by (intros i Hi; rewrite pow_A; apply H; exact Hi).
  rewrite pow_A. reflexivity.
Qed.
Lemma next_phi k : orth_phi k -> orth_pi k -> half_defined U a b (t k) -> orth_phi (S k) /\ W k <> 0 /\ G k <> 0.
Proof.
  intros O1 O2 (_ & _ & D). rewrite (v_G O2) in D. assert (Wn : W k <> 0) by (intros E; apply D; rewrite E; ring). assert (Gn : G k <> 0) by (intros E; apply D; rewrite E; ring).
  split; [|auto]. assert (Ea : al k = F k / G k) by (unfold b_alpha'; rewrite (rho_F O1), (v_G O2); field; auto).
  intros i Hi. rewrite phi_next, pow_add, pow_scal, pow_A, ip_add_r, ip_scal_r. change (A (pow i (pi k))) with (pow (S i) (pi k)).
  destruct (Nat.eq_dec i k) as [->|Hne]; [|rewrite (O1 i), (O2 i) by lia; ring]. fold (F k). fold (G k). rewrite Ea. field. exact Gn.
Qed.
Lemma next_pi k : orth_phi k -> orth_pi k -> half_defined U a b (t k) -> half_defined U a b (t (S k)) -> orth_pi (S k).
Proof.
  intros O1 O2 D D'. destruct (next_phi O1 O2 D) as (O3 & Wn & Gn). destruct D' as (R1 & R2 & _). cbn [bicg_iter bicg_next b_rho b_omega] in R1, R2.
  assert (Fn : F k <> 0) by (intros E; apply R1; rewrite (rho_F O1), E; ring).
  assert (Eb : be (S k) = - (F (S k) / G k)).
  { unfold b_beta. rewrite (rho_F O3). cbn [bicg_iter bicg_next b_rho b_alpha b_omega W].
    unfold b_alpha'. rewrite (rho_F O1), (v_G O2). field. auto. }
  intros i Hi. rewrite pi_next, pow_add, pow_scal, ip_add_r, ip_scal_r.
  destruct (Nat.eq_dec i k) as [->|Hne]; [|rewrite (O3 (S i)), (O2 i) by lia; ring]. fold (F (S k)). fold (G k). rewrite Eb. field. exact Gn.
Qed.
Lemma orth_all k : (forall j, (j <= k)%nat -> half_defined U a b (t j)) -> orth_phi k /\ orth_pi k.
Proof.
  induction k as [|k IH]; intros D; [split; intros i Hi; lia|]. destruct IH as [O1 O2]; [intros; apply D; lia|].
  split; [apply (next_phi O1 O2 (D k ltac:(lia)))|apply (next_pi O1 O2 (D k ltac:(lia)) (D (S k) ltac:(lia)))].
Qed.

(** the transposed operator and the shadow Krylov vectors *)
Fixpoint shadow (i : nat) : P -> R := match i with O => b | S i' => app_op U (fun u v => a v u) (shadow i') end.
Lemma transpose_ip f g : ⟨f, A g⟩ = ⟨app_op U (fun u v => a v u) f, g⟩.
Proof.
  unfold ip, app_op. transitivity (Rsum (fun u => Rsum (fun v => f u * a u v * g v) U) U).
  - apply Rsum_ext. intros u _. rewrite <- Rsum_scal. apply Rsum_ext. intros; ring.
  - rewrite Rsum_swap. apply Rsum_ext. intros v _. rewrite (Rmult_comm _ (g v)), <- Rsum_scal. apply Rsum_ext. intros; ring.
Qed.
Lemma shadow_pow i : forall f, ⟨shadow i, f⟩ = ⟨b, pow i f⟩.
Proof. induction i as [|i IH]; intros f; [reflexivity|]. cbn [shadow]. rewrite <- transpose_ip, IH, pow_A. reflexivity. Qed.

Section Finite.
Variable dec : forall x y : P, {x = y} + {x <> y}.
Hypothesis Hnd : NoDup U.
(** ** after as many unbroken steps as there are unknowns the residual is zero *)
Lemma phi_vanishes : (forall j, (j < length U)%nat -> half_defined U a b (t j)) -> vzero U (phi (length U)).
Proof.
  intros D. set (n := length U) in *.
  assert (Hall : forall k, (k < n)%nat -> orth_phi k /\ orth_pi k) by (intros k Hk; apply orth_all; intros j Hj; apply D; lia).
  assert (On : orth_phi n).
  { destruct n as [|m]; [intros i Hi; lia|]. destruct (Hall m ltac:(lia)) as [O1 O2]. apply (next_phi O1 O2 (D m ltac:(lia))). }
  apply ip_zero. destruct (Req_dec (⟨phi n, phi n⟩) 0) as [E|E]; [exact E|exfalso].
  set (w := fun i => if (i <? n)%nat then shadow i else phi n).
  set (z := fun i => if (i <? n)%nat then A (pi i) else phi n).
  assert (C : (S n <= length U)%nat).
  { apply (@triangular_length P dec U Hnd w z); unfold w, z.
    - intros i j Hij Hj. destruct (Nat.ltb_spec i n); [|lia]. rewrite shadow_pow. destruct (Nat.ltb_spec j n).
      + rewrite pow_A. apply (proj2 (Hall j ltac:(lia)) i Hij).
      + replace j with n in * by lia. apply On. lia.
    - intros i Hi. destruct (Nat.ltb_spec i n).
      + rewrite shadow_pow, pow_A. destruct (Hall i ltac:(lia)) as [O1 O2]. apply (next_phi O1 O2 (D i ltac:(lia))).
      + exact E. }
  fold n in C. lia.
Qed.

Theorem bicg_terminates : (forall j, (j < length U)%nat -> half_defined U a b (t j)) -> vzero U (b_r (t (length U))).
Proof. intros D. rewrite (proj1 (factor _)). apply psi_zero. apply phi_vanishes. exact D. Qed.
Lemma half_residual k : b_s U a b (t k) = psi k (phi (S k)).
Proof.
  destruct (factor k) as [I1 I2]. rewrite phi_next, psi_lin, psi_A, <- I1, <- I2. apply functional_extensionality. intros u. unfold b_s, b_v', vadd, vscal. ring.
Qed.
(** the residual vanishes in the middle of the last step *)
Theorem half_terminates m : length U = S m -> (forall j, (j <= m)%nat -> half_defined U a b (t j)) -> vzero U (b_s U a b (t m)).
Proof. intros En D. rewrite half_residual, <- En. apply psi_zero. apply phi_vanishes. intros j Hj. apply D. lia. Qed.
Lemma zero_half_breaks k : vzero U (b_s U a b (t k)) -> ip U (b_t U a b (t k)) (b_t U a b (t k)) = 0.
Proof.
  intros Hz. apply vzero_ip. intros u Hu. unfold b_t, app_op. rewrite (Rsum_ext _ (fun _ => 0)); [apply Rsum_zero|]. intros v Hv. rewrite (Hz v Hv). ring.
Qed.
(** so not every one of the first |U| steps is defined *)
Theorem bicg_breaks : (0 < length U)%nat -> exists k, (k < length U)%nat /\ (forall j, (j < k)%nat -> bicg_defined U a x0 b j) /\ ~ bicg_defined U a x0 b k.
Proof.
  intros Hu. assert (D : forall k, (forall j, (j < k)%nat -> bicg_defined U a x0 b j) \/ exists i, (i < k)%nat /\ (forall j, (j < i)%nat -> bicg_defined U a x0 b j) /\ ~ bicg_defined U a x0 b i).
  { induction k as [|k [IH|(i & I1 & I2 & I3)]]; [left; intros j Hj; lia| |right; exists i; split; [lia|auto]].
    assert (Dk : bicg_defined U a x0 b k \/ ~ bicg_defined U a x0 b k).
    { unfold bicg_defined, half_defined. destruct (Req_dec (b_rho (t k)) 0); [right; tauto|]. destruct (Req_dec (b_omega (t k)) 0); [right; tauto|].
      destruct (Req_dec (ip U b (b_v' U a b (t k))) 0); [right; tauto|]. destruct (Req_dec (ip U (b_t U a b (t k)) (b_t U a b (t k))) 0); [right; tauto|left; tauto]. }
    destruct Dk as [Dk|Dk]; [left; intros j Hj; destruct (Nat.eq_dec j k) as [-> |Ne]; [exact Dk|apply IH; lia]|right; exists k; auto]. }
  destruct (D (length U)) as [H|H]; [exfalso|exact H]. destruct (length U) as [|m] eqn:En; [lia|].
  apply (proj2 (H m ltac:(lia))). apply zero_half_breaks. apply half_terminates; [exact En|]. intros j Hj. apply (H j); lia.
Qed.
End Finite.
Lemma half_residual_identity k : forall u, b_s U a b (t k) u = b u - A (vsub (vadd (b_x (t k)) (vscal (b_alpha' U a b (t k)) (b_p' U b (t k)))) x0) u.
Proof.
  intros u. unfold b_s. rewrite bicg_residual_identity.
  replace (A (vsub (vadd (b_x (t k)) (vscal (b_alpha' U a b (t k)) (b_p' U b (t k)))) x0) u)
    with (A (vadd (vsub (b_x (t k)) x0) (vscal (b_alpha' U a b (t k)) (b_p' U b (t k)))) u) by (apply app_ext; intros v _; unfold vadd, vsub, vscal; ring).
  rewrite app_add, app_scal. unfold b_v'. ring.
Qed.
(** a step whose residual is zero breaks down *)
Lemma zero_residual_breaks k : vzero U (b_r (t k)) -> ~ half_defined U a b (t k).
Proof.
  intros Hz (_ & _ & D). apply D.
  assert (Er : b_rho' U b (t k) = 0) by (unfold b_rho'; rewrite ip_sym; apply vzero_ip; exact Hz).
  assert (Hp : vzero U (b_p' U b (t k))) by (intros u Hu; unfold b_p', b_beta; rewrite Er, (Hz u Hu); unfold Rdiv; ring).
  rewrite ip_sym. apply vzero_ip. intros u Hu. unfold b_v', app_op. rewrite (Rsum_ext _ (fun _ => 0)); [apply Rsum_zero|]. intros v Hv. rewrite (Hp v Hv). ring.
Qed.
(** omega minimises the residual along A s *)
Lemma omega_minimises k c : ip U (b_t U a b (t k)) (b_t U a b (t k)) <> 0 ->
  ⟨b_r (t (S k)), b_r (t (S k))⟩ <= ⟨vsub (b_s U a b (t k)) (vscal c (b_t U a b (t k))), vsub (b_s U a b (t k)) (vscal c (b_t U a b (t k)))⟩.
Proof.
  intros D. assert (Er : b_r (t (S k)) = vsub (b_s U a b (t k)) (vscal (om k) (b_t U a b (t k)))) by reflexivity. rewrite Er.
  set (s := b_s U a b (t k)) in *. set (v := b_t U a b (t k)) in *.
  assert (Eo : om k = ⟨v, s⟩ / ⟨v, v⟩) by reflexivity. rewrite Eo.
  assert (Q : forall d, ⟨vsub s (vscal d v), vsub s (vscal d v)⟩ = ⟨s, s⟩ - 2 * d * ⟨v, s⟩ + d * d * ⟨v, v⟩).
  { intros d. rewrite !ip_sub_l, !ip_sub_r, !ip_scal_l, !ip_scal_r, (ip_sym U s v). ring. }
  rewrite !Q. set (p := ⟨v, s⟩). set (q := ⟨v, v⟩) in *. assert (Hq : 0 < q) by (pose proof (ip_pos U v); fold q in H; lra).
  assert (E : ⟨s, s⟩ - 2 * c * p + c * c * q - (⟨s, s⟩ - 2 * (p / q) * p + p / q * (p / q) * q) = q * ((c - p / q) * (c - p / q))) by (field; lra).
  assert (0 <= q * ((c - p / q) * (c - p / q))) by (apply Rmult_le_pos; [lra|apply Rle_0_sqr]). lra.
Qed.
End BiCG.
