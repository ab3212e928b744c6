(** CGMath: theory of the textbook conjugate gradient iteration. *)
From Coq Require Import Reals Lra.
From Verif Require Import Base ExactSum LinAlg CGSpec.
Set Implicit Arguments.
Local Open Scope R_scope.

Section CG.
Variable P : Type.
Variable U : list P.
Variable a : P -> P -> R.
Variables x0 b : P -> R.
Notation X k := (it_x (cg_iter U a x0 b k)).
Notation r k := (it_r (cg_iter U a x0 b k)).
Notation p k := (it_p (cg_iter U a x0 b k)).
Notation Ap k := (app_op U a (p k)).
Notation "⟨ f , g ⟩" := (ip U f g) (f at level 199, g at level 199).
Definition alpha (k : nat) : R := ⟨r k, r k⟩ / ⟨p k, Ap k⟩.
Definition beta (k : nat) : R := ⟨r (S k), r (S k)⟩ / ⟨r k, r k⟩.
Lemma X_next k : X (S k) = vadd (X k) (vscal (alpha k) (p k)). Proof. reflexivity. Qed.
Lemma r_next k : r (S k) = vsub (r k) (vscal (alpha k) (Ap k)). Proof. reflexivity. Qed.
Lemma p_next k : p (S k) = vadd (r (S k)) (vscal (beta k) (p k)). Proof. reflexivity. Qed.

(** the recurrence keeps r = b - A (x - x0) *)
Lemma residual_identity k : forall u, r k u = b u - app_op U a (vsub (X k) x0) u.
Proof.
  induction k as [|k IH]; intros u.
  - cbn [cg_iter it_r it_x]. rewrite app_sub. ring.
  - rewrite r_next. unfold vsub at 1. unfold vscal. rewrite IH.
    assert (E : app_op U a (vsub (X (S k)) x0) u = app_op U a (vadd (vsub (X k) x0) (vscal (alpha k) (p k))) u).
    { apply app_ext. intros v _. rewrite X_next. unfold vsub, vadd, vscal. ring. }
    rewrite E, app_add, app_scal. ring.
Qed.

Section SPD.
Hypothesis Hsym : symmetric U a.
Hypothesis Hpd : positive_definite U a.
Lemma sym_ip f g : ⟨f, app_op U a g⟩ = ⟨app_op U a f, g⟩.
Proof. apply symmetric_ip. exact Hsym. Qed.

(** the invariant after [k] steps *)
Record inv (k : nat) : Prop := mk_inv {
  inv_pr : forall i j, (i < j)%nat -> (j <= k)%nat -> ⟨p i, r j⟩ = 0;
  inv_prr : forall j, (j <= k)%nat -> ⟨p j, r j⟩ = ⟨r j, r j⟩;
  inv_rr : forall i j, (i < j)%nat -> (j <= k)%nat -> ⟨r i, r j⟩ = 0;
  inv_pAp : forall i j, (i < j)%nat -> (j <= k)%nat -> ⟨p i, Ap j⟩ = 0 }.

Lemma pAp_pos k j : inv k -> (j <= k)%nat -> ⟨r j, r j⟩ <> 0 -> 0 < ⟨p j, Ap j⟩.
Proof.
  intros Hi Hj Hr. apply Hpd. intros Hz. apply Hr. rewrite <- (inv_prr Hi Hj). apply vzero_ip. exact Hz.
Qed.
Lemma alpha_neq k j : inv k -> (j <= k)%nat -> ⟨r j, r j⟩ <> 0 -> alpha j <> 0.
Proof.
  intros Hi Hj Hr. assert (Hp := pAp_pos Hi Hj Hr). unfold alpha, Rdiv. apply Rmult_integral_contrapositive_currified; [exact Hr|].
  apply Rinv_neq_0_compat. lra.
Qed.
Lemma inv_all k : (forall j, (j < k)%nat -> ⟨r j, r j⟩ <> 0) -> inv k.
Proof.
  induction k as [|k IH]; intros Hr.
  - constructor; intros; try lia. replace j with 0%nat by lia. reflexivity.
  - assert (Hi : inv k) by (apply IH; intros j Hj; apply Hr; lia). clear IH.
    assert (Hrk : ⟨r k, r k⟩ <> 0) by (apply Hr; lia).
    assert (HpAp := pAp_pos Hi (le_n k) Hrk).
    assert (Hak : alpha k * ⟨p k, Ap k⟩ = ⟨r k, r k⟩) by (unfold alpha; field; lra).
    assert (PR : forall i, (i <= k)%nat -> ⟨p i, r (S k)⟩ = 0).
    { intros i Hik. rewrite r_next, ip_sub_r, ip_scal_r. destruct (Nat.eq_dec i k) as [->|Hne].
      - rewrite (inv_prr Hi (le_n k)), Hak. ring.
      - rewrite (inv_pr Hi (i:=i) (j:=k)), (inv_pAp Hi (i:=i) (j:=k)) by lia. ring. }
    assert (RR : forall i, (i <= k)%nat -> ⟨r i, r (S k)⟩ = 0).
    { intros i Hik. destruct i as [|i]; [exact (PR 0%nat Hik)|].
      assert (E : ⟨p (S i), r (S k)⟩ = ⟨r (S i), r (S k)⟩ + beta i * ⟨p i, r (S k)⟩) by (rewrite (p_next i), ip_add_l, ip_scal_l; reflexivity).
      rewrite (PR (S i) Hik), (PR i) in E by lia. lra. }
    assert (AR : forall i, (i <= k)%nat -> alpha i * ⟨Ap i, r (S k)⟩ = ⟨r i, r (S k)⟩ - ⟨r (S i), r (S k)⟩).
    { intros i Hik. assert (E : ⟨r (S i), r (S k)⟩ = ⟨r i, r (S k)⟩ - alpha i * ⟨Ap i, r (S k)⟩) by (rewrite (r_next i), ip_sub_l, ip_scal_l; reflexivity). lra. }
    assert (PAP : forall i, (i <= k)%nat -> ⟨p i, Ap (S k)⟩ = 0).
    { intros i Hik.
      assert (E : ⟨p i, Ap (S k)⟩ = ⟨Ap i, r (S k)⟩ + beta k * ⟨p i, Ap k⟩).
      { rewrite sym_ip. rewrite (p_next k). rewrite ip_add_r, ip_scal_r. rewrite (sym_ip (p i) (p k)). reflexivity. }
      assert (Han : alpha i <> 0) by (apply (alpha_neq Hi Hik); apply Hr; lia).
      destruct (Nat.eq_dec i k) as [->|Hne].
      - assert (A := AR k (le_n k)). rewrite (RR k (le_n k)) in A.
        assert (Eq : alpha k * ⟨p k, Ap (S k)⟩ = 0); [|apply Rmult_integral in Eq; tauto].
        rewrite E, Rmult_plus_distr_l, A.
        replace (alpha k * (beta k * ⟨p k, Ap k⟩)) with (beta k * (alpha k * ⟨p k, Ap k⟩)) by ring. rewrite Hak. unfold beta. field. exact Hrk.
      - assert (A := AR i Hik). rewrite (RR i Hik), (RR (S i)) in A by lia.
        assert (Z : ⟨Ap i, r (S k)⟩ = 0). { assert (Eq : alpha i * ⟨Ap i, r (S k)⟩ = 0) by lra. apply Rmult_integral in Eq. tauto. }
        rewrite E, Z, (inv_pAp Hi (i:=i) (j:=k)) by lia. ring. }
    constructor.
    + intros i j Hij Hj. destruct (Nat.eq_dec j (S k)) as [->|]; [apply PR; lia|apply (inv_pr Hi); lia].
    + intros j Hj. destruct (Nat.eq_dec j (S k)) as [->|]; [|apply (inv_prr Hi); lia].
      rewrite (p_next k), ip_add_l, ip_scal_l, (PR k) by lia. ring.
    + intros i j Hij Hj. destruct (Nat.eq_dec j (S k)) as [->|]; [apply RR; lia|apply (inv_rr Hi); lia].
    + intros i j Hij Hj. destruct (Nat.eq_dec j (S k)) as [->|]; [apply PAP; lia|apply (inv_pAp Hi); lia].
Qed.

(** no breakdown while the residual is non-zero *)
Lemma defined_while_nonzero k : (forall j, (j < k)%nat -> ⟨r j, r j⟩ <> 0) -> forall j, (j < k)%nat -> cg_defined U a x0 b j.
Proof.
  intros H j Hj. assert (Hi := inv_all H). split; [|apply H; exact Hj].
  assert (X := @pAp_pos k j Hi ltac:(lia) (H j Hj)). lra.
Qed.

(** termination *)
Variable dec : forall u v : P, {u = v} + {u <> v}.
Hypothesis Hnd : NoDup U.
Lemma residuals_orthogonal k : (forall j, (j < k)%nat -> ⟨r j, r j⟩ <> 0) -> forall m, (m <= k)%nat ->
  orthogonal U (map (fun j => r j) (seq (k - m) m)).
Proof.
  intros H. assert (Hi := inv_all H). induction m as [|m IH]; intros Hm; [exact I|].
  cbn [seq map orthogonal]. split; [apply H; lia|]. split.
  - intros g Hg. apply in_map_iff in Hg. destruct Hg as [j [<- Hj]]. apply in_seq in Hj. apply (inv_rr Hi); lia.
  - replace (S (k - S m)) with (k - m)%nat by lia. apply IH. lia.
Qed.
Theorem terminates : exists k, (k <= length U)%nat /\ ⟨r k, r k⟩ = 0 /\ forall j, (j < k)%nat -> ⟨r j, r j⟩ <> 0.
Proof.
  assert (G : forall m, (exists k, (k < m)%nat /\ ⟨r k, r k⟩ = 0 /\ forall j, (j < k)%nat -> ⟨r j, r j⟩ <> 0) \/ (forall j, (j < m)%nat -> ⟨r j, r j⟩ <> 0)).
  { induction m as [|m [IH|IH]].
    - right. intros; lia.
    - left. destruct IH as [k [H1 H2]]. exists k. split; [lia|exact H2].
    - destruct (Req_EM_T ⟨r m, r m⟩ 0) as [E|E].
      + left. exists m. split; [lia|]. split; [exact E|exact IH].
      + right. intros j Hj. destruct (Nat.eq_dec j m) as [->|]; [exact E|apply IH; lia]. }
  destruct (G (S (length U))) as [[k [H1 H2]]|H].
  - exists k. split; [lia|exact H2].
  - exfalso. assert (O := residuals_orthogonal H (le_n _)). apply (orthogonal_length dec) in O; [|exact Hnd].
    rewrite map_length, seq_length in O. lia.
Qed.

(** the error in the energy norm *)
Variable sol : P -> R.
Hypothesis Hsol : forall u, In u U -> app_op U a sol u = b u.
Definition err (k : nat) : P -> R := vsub (vadd x0 sol) (X k).
Definition energy (f : P -> R) : R := ⟨f, app_op U a f⟩.
Lemma err_residual k : veq U (app_op U a (err k)) (r k).
Proof.
  intros u Hu. rewrite residual_identity. unfold err. rewrite !app_sub, app_add, (Hsol u Hu). ring.
Qed.
Lemma energy_next k : (forall j, (j <= k)%nat -> ⟨r j, r j⟩ <> 0) ->
  energy (err (S k)) = energy (err k) - ⟨r k, r k⟩ * ⟨r k, r k⟩ / ⟨p k, Ap k⟩.
Proof.
  intros H. assert (Hi : inv k) by (apply inv_all; intros; apply H; lia).
  assert (Hp := pAp_pos Hi (le_n k) (H k (le_n k))).
  assert (E : err (S k) = vsub (vadd x0 sol) (vadd (X k) (vscal (alpha k) (p k)))) by reflexivity.
  assert (EE : forall f g, ⟨vsub f g, app_op U a (vsub f g)⟩ = ⟨f, app_op U a f⟩ - 2 * ⟨g, app_op U a f⟩ + ⟨g, app_op U a g⟩).
  { intros f g. assert (X1 : ⟨vsub f g, app_op U a (vsub f g)⟩ = ⟨vsub f g, vsub (app_op U a f) (app_op U a g)⟩).
    { apply ip_ext; [intros u _; reflexivity|]. intros u _. apply app_sub. }
    rewrite X1, ip_sub_r, !ip_sub_l. rewrite (sym_ip f g), (ip_sym U (app_op U a f) g). ring. }
  unfold energy. assert (E2 : veq U (err (S k)) (vsub (err k) (vscal (alpha k) (p k)))).
  { intros u _. rewrite E. unfold err, vsub, vadd, vscal. ring. }
  rewrite (@ip_ext P U _ _ _ _ E2 (fun u _ => @app_ext P U a _ _ u E2)). rewrite EE.
  rewrite !ip_scal_l. rewrite (@ip_ext P U _ _ _ _ (fun u _ => eq_refl (p k u)) (err_residual k)), (inv_prr Hi (le_n k)).
  assert (E3 : ⟨p k, app_op U a (vscal (alpha k) (p k))⟩ = alpha k * ⟨p k, Ap k⟩).
  { rewrite <- ip_scal_r. apply ip_ext; [intros u _; reflexivity|]. intros u _. unfold vscal at 2. apply app_scal. }
  rewrite E3. unfold alpha. field. lra.
Qed.
Lemma energy_decreases k : (forall j, (j <= k)%nat -> ⟨r j, r j⟩ <> 0) -> energy (err (S k)) < energy (err k).
Proof.
  intros H. rewrite (energy_next H). assert (Hi : inv k) by (apply inv_all; intros; apply H; lia).
  assert (Hp := pAp_pos Hi (le_n k) (H k (le_n k))). assert (Hr := ip_pos U (r k)). assert (Hn := H k (le_n k)).
  assert (0 < ⟨r k, r k⟩ * ⟨r k, r k⟩ / ⟨p k, Ap k⟩); [|lra].
  apply Rdiv_lt_0_compat; [nra|exact Hp].
Qed.

(** [f] is a combination of the residuals 0..m *)
Definition spanned (m : nat) (f : P -> R) : Prop := exists c, veq U f (fun u => Rsum (fun j => c j * r j u) (seq 0 (S m))).
Lemma spanned_ip m f g : spanned m f -> (forall j, (j <= m)%nat -> ⟨r j, g⟩ = 0) -> ⟨f, g⟩ = 0.
Proof.
  intros [c Hc] H. rewrite (@ip_ext P U _ _ g g Hc (fun u _ => eq_refl)). unfold ip.
  transitivity (Rsum (fun u => Rsum (fun j => c j * (r j u * g u)) (seq 0 (S m))) U).
  - apply Rsum_ext. intros u _. rewrite Rmult_comm, <- Rsum_scal. apply Rsum_ext. intros; ring.
  - rewrite Rsum_swap. rewrite <- (Rsum_zero (seq 0 (S m))). apply Rsum_ext. intros j Hj. rewrite Rsum_scal. apply in_seq in Hj.
    assert (E := H j ltac:(lia)). unfold ip in E. rewrite E. ring.
Qed.
Lemma spanned_r m j : (j <= m)%nat -> spanned m (r j).
Proof.
  intros Hj. exists (fun i => if Nat.eq_dec i j then 1 else 0). intros u _. symmetry.
  assert (G : forall l, NoDup l -> In j l -> Rsum (fun i => (if Nat.eq_dec i j then 1 else 0) * r i u) l = r j u).
  { induction l as [|i l IH]; intros Hn Hin; [destruct Hin|]. inversion Hn; subst. rewrite Rsum_cons. destruct (Nat.eq_dec i j) as [->|Hne].
    - transitivity (1 * r j u + Rsum (fun _ => 0) l); [f_equal; apply Rsum_ext; intros k Hk; destruct (Nat.eq_dec k j) as [->|]; [contradiction|ring]|]. rewrite Rsum_zero. ring.
    - destruct Hin as [|Hin]; [congruence|]. rewrite (IH H2 Hin). ring. }
  apply G; [apply seq_NoDup|apply in_seq; lia].
Qed.
Lemma spanned_lin m f g c d : spanned m f -> spanned m g -> spanned m (fun u => c * f u + d * g u).
Proof.
  intros [cf Hf] [cg Hg]. exists (fun j => c * cf j + d * cg j). intros u Hu. rewrite (Hf u Hu), (Hg u Hu), <- !Rsum_scal, <- Rsum_plus. apply Rsum_ext. intros; ring.
Qed.
Lemma spanned_ext m f g : veq U f g -> spanned m g -> spanned m f.
Proof. intros H [c Hc]. exists c. intros u Hu. rewrite (H u Hu). apply Hc. exact Hu. Qed.
Lemma spanned_sum m (l : list nat) c (F : nat -> P -> R) : (forall j, In j l -> spanned m (F j)) -> spanned m (fun u => Rsum (fun j => c j * F j u) l).
Proof.
  induction l as [|j l IH]; intros H.
  - exists (fun _ => 0). intros u _. rewrite Rsum_nil. transitivity (Rsum (fun _ : nat => 0) (seq 0 (S m))); [symmetry; apply Rsum_zero|]. apply Rsum_ext. intros; ring.
  - apply spanned_ext with (g := fun u => c j * F j u + 1 * Rsum (fun j => c j * F j u) l).
    + intros u _. rewrite Rsum_cons. ring.
    + apply spanned_lin; [apply H; left; reflexivity|apply IH; intros i Hi; apply H; right; exact Hi].
Qed.
(** the Krylov vectors A^i b *)
Fixpoint krylov (i : nat) : P -> R := match i with O => b | S i' => app_op U a (krylov i') end.
Lemma app_r_spanned k j : (forall i, (i < k)%nat -> ⟨r i, r i⟩ <> 0) -> (S j <= k)%nat -> spanned (S j) (app_op U a (r j)).
Proof.
  intros H Hj. assert (Hi := inv_all H).
  assert (AP : forall i m, (i < k)%nat -> (S i <= m)%nat -> spanned m (Ap i)).
  { intros i m Hik Hm. assert (Ha : alpha i <> 0) by (apply (alpha_neq Hi); [lia|apply H; exact Hik]).
    apply spanned_ext with (g := fun u => / alpha i * r i u + (- / alpha i) * r (S i) u).
    - intros u _. rewrite (r_next i). unfold vsub, vscal. field. exact Ha.
    - apply spanned_lin; apply spanned_r; lia. }
  destruct j as [|j]; [apply (AP 0%nat 1%nat); lia|].
  apply spanned_ext with (g := fun u => 1 * Ap (S j) u + (- beta j) * Ap j u).
  - intros u _. assert (E : veq U (r (S j)) (vsub (p (S j)) (vscal (beta j) (p j)))) by (intros v _; rewrite (p_next j); unfold vsub, vadd, vscal; ring).
    rewrite (@app_ext P U a _ _ u E), app_sub, app_scal. ring.
  - apply spanned_lin; apply AP; lia.
Qed.
Lemma krylov_spanned k : (forall i, (i < k)%nat -> ⟨r i, r i⟩ <> 0) -> forall i, (i <= k)%nat -> spanned i (krylov i).
Proof.
  intros H i. induction i as [|i IH]; intros Hi; [apply (spanned_r (m:=0) (j:=0)); lia|].
  destruct (IH ltac:(lia)) as [c Hc]. cbn [krylov].
  apply spanned_ext with (g := fun u => Rsum (fun j => c j * app_op U a (r j) u) (seq 0 (S i))).
  - intros u _. rewrite (@app_ext P U a _ _ u Hc). unfold app_op at 1.
    transitivity (Rsum (fun v => Rsum (fun j => c j * (a u v * r j v)) (seq 0 (S i))) U).
    + apply Rsum_ext. intros v _. rewrite <- Rsum_scal. apply Rsum_ext. intros; ring.
    + rewrite Rsum_swap. apply Rsum_ext. intros j _. rewrite Rsum_scal. reflexivity.
  - apply spanned_sum. intros j Hj. apply in_seq in Hj.
    destruct (@app_r_spanned k j H ltac:(lia)) as [d Hd].
    destruct (Nat.eq_dec j i) as [->|Hne]; [exists d; exact Hd|].
    apply spanned_ext with (g := fun u => Rsum (fun j => d j * r j u) (seq 0 (S (S j)))); [exact Hd|].
    apply spanned_sum. intros l Hl. apply in_seq in Hl. apply spanned_r. lia.
Qed.
(** x_k is the best approximation in x0 + span(b, Ab, ..., A^(k-1) b) *)
Theorem optimal k : (forall i, (i < k)%nat -> ⟨r i, r i⟩ <> 0) -> forall c : nat -> R,
  energy (err k) <= energy (vsub (vadd x0 sol) (vadd x0 (fun u => Rsum (fun i => c i * krylov i u) (seq 0 k)))).
Proof.
  intros H c. assert (Hi := inv_all H).
  set (y := fun u => Rsum (fun i => c i * krylov i u) (seq 0 k)).
  set (z := vsub (vsub (X k) x0) y).
  (* every step direction is in the span too *)
  assert (Hp : forall j m, (j <= m)%nat -> spanned m (p j)).
  { induction j as [|j IH]; intros m Hm; [apply (spanned_r (m:=m) (j:=0)); lia|].
    apply spanned_ext with (g := fun u => 1 * r (S j) u + beta j * p j u); [intros u _; rewrite (p_next j); unfold vadd, vscal; ring|].
    apply spanned_lin; [apply spanned_r; lia|apply IH; lia]. }
  assert (Hx : forall m, exists d, forall u, vsub (X m) x0 u = Rsum (fun j => d j * p j u) (seq 0 m)).
  { induction m as [|m [d Hd]]; [exists (fun _ => 0); intros u; cbn [seq]; rewrite Rsum_nil; unfold vsub; cbn [cg_iter it_x]; ring|].
    exists (fun j => if Nat.eq_dec j m then alpha m else d j). intros u. rewrite X_next. unfold vsub at 1, vadd, vscal.
    rewrite seq_S, Rsum_app, Rsum_cons, Rsum_nil. cbn [Nat.add]. destruct (Nat.eq_dec m m); [|congruence].
    transitivity (vsub (X m) x0 u + alpha m * p m u); [unfold vsub; ring|]. rewrite (Hd u), Rplus_0_r. f_equal.
    apply Rsum_ext. intros j Hj. apply in_seq in Hj. destruct (Nat.eq_dec j m); [lia|reflexivity]. }
  assert (Hz : ⟨z, r k⟩ = 0).
  { destruct k as [|k].
    - destruct (Hx 0%nat) as [d Hd]. transitivity (⟨(fun _ => 0), r 0%nat⟩); [|apply vzero_ip; intros u _; reflexivity].
      apply ip_ext; [|intros u _; reflexivity]. intros u _. unfold z, y, vsub at 1. rewrite (Hd u). cbn [seq]. rewrite !Rsum_nil. ring.
    - apply spanned_ip with (m := k).
      + apply spanned_ext with (g := fun u => 1 * vsub (X (S k)) x0 u + (-1) * y u); [intros u _; unfold z, vsub; ring|].
        apply spanned_lin.
        * destruct (Hx (S k)) as [d Hd]. apply spanned_ext with (g := fun u => Rsum (fun j => d j * p j u) (seq 0 (S k))); [intros u _; apply Hd|].
          apply spanned_sum. intros j Hj. apply in_seq in Hj. apply Hp. lia.
        * apply spanned_sum. intros j Hj. apply in_seq in Hj. destruct (@krylov_spanned (S k) H j ltac:(lia)) as [d Hd].
          apply spanned_ext with (g := fun u => Rsum (fun j => d j * r j u) (seq 0 (S j))); [exact Hd|]. apply spanned_sum. intros l Hl. apply in_seq in Hl. apply spanned_r. lia.
      + intros j Hj. apply (inv_rr Hi); lia. }
  set (w := vsub (vadd x0 sol) (vadd x0 y)).
  assert (Ew : veq U w (vadd (err k) z)) by (intros u _; unfold w, err, z, vadd, vsub; ring).
  assert (E : energy w = energy (err k) + 2 * ⟨z, r k⟩ + energy z).
  { unfold energy. rewrite (@ip_ext P U _ _ _ _ Ew (fun u _ => @app_ext P U a _ _ u Ew)).
    assert (X1 : ⟨vadd (err k) z, app_op U a (vadd (err k) z)⟩ = ⟨vadd (err k) z, vadd (app_op U a (err k)) (app_op U a z)⟩).
    { apply ip_ext; [intros u _; reflexivity|]. intros u _. apply app_add. }
    rewrite X1, ip_add_r, !ip_add_l. rewrite (sym_ip (err k) z), (ip_sym U _ z).
    assert (E2 : ⟨z, app_op U a (err k)⟩ = ⟨z, r k⟩) by (apply ip_ext; [intros u _; reflexivity|apply err_residual]). rewrite E2. ring. }
  assert (Hpos : 0 <= energy z).
  { unfold energy. destruct (Req_EM_T ⟨z, z⟩ 0) as [E0|E0]; [apply ip_zero in E0; rewrite (vzero_ip _ E0); lra|].
    left. apply Hpd. intros Hv. apply E0. apply vzero_ip. exact Hv. }
  change (energy (err k) <= energy w). rewrite E, Hz. lra.
Qed.
End SPD.
End CG.
