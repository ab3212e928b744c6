(** LinAlg: finite-dimensional real vectors indexed by the elements of a list. *)
From Coq Require Import Reals Lra.
From Verif Require Import Base ExactSum.
Set Implicit Arguments.
Local Open Scope R_scope.

Section LinAlg.
Variable P : Type.
Variable U : list P.
Definition ip (f g : P -> R) : R := Rsum (fun u => f u * g u) U.
Definition app_op (a : P -> P -> R) (x : P -> R) (u : P) : R := Rsum (fun v => a u v * x v) U.
Definition vadd (f g : P -> R) (u : P) : R := f u + g u.
Definition vscal (c : R) (f : P -> R) (u : P) : R := c * f u.
Definition vsub (f g : P -> R) (u : P) : R := f u - g u.
Definition vzero (f : P -> R) : Prop := forall u, In u U -> f u = 0.
Definition veq (f g : P -> R) : Prop := forall u, In u U -> f u = g u.

Lemma ip_sym f g : ip f g = ip g f.
Proof. apply Rsum_ext. intros; ring. Qed.
Lemma ip_ext f f' g g' : veq f f' -> veq g g' -> ip f g = ip f' g'.
Proof. intros H1 H2. apply Rsum_ext. intros u Hu. rewrite (H1 u Hu), (H2 u Hu). reflexivity. Qed.
Lemma ip_add_r f g h : ip f (vadd g h) = ip f g + ip f h.
Proof. unfold ip. rewrite <- Rsum_plus. apply Rsum_ext. intros; unfold vadd; ring. Qed.
Lemma ip_scal_r f c g : ip f (vscal c g) = c * ip f g.
Proof. unfold ip. rewrite <- Rsum_scal. apply Rsum_ext. intros; unfold vscal; ring. Qed.
Lemma ip_sub_r f g h : ip f (vsub g h) = ip f g - ip f h.
Proof.
  replace (ip f g - ip f h) with (ip f g + (-1) * ip f h) by ring. rewrite <- ip_scal_r, <- ip_add_r. apply Rsum_ext. intros; unfold vadd, vscal, vsub; ring.
Qed.
Lemma ip_add_l f g h : ip (vadd g h) f = ip g f + ip h f.
Proof. rewrite !(ip_sym _ f). apply ip_add_r. Qed.
Lemma ip_scal_l f c g : ip (vscal c g) f = c * ip g f.
Proof. rewrite !(ip_sym _ f). apply ip_scal_r. Qed.
Lemma ip_sub_l f g h : ip (vsub g h) f = ip g f - ip h f.
Proof. rewrite !(ip_sym _ f). apply ip_sub_r. Qed.
Lemma ip_pos f : 0 <= ip f f.
Proof. apply Rsum_nonneg. intros; nra. Qed.
Lemma ip_zero f : ip f f = 0 -> vzero f.
Proof. intros H u Hu. assert (Z := Rsum_nonneg_zero (fun u => f u * f u) U (fun v _ => Rle_0_sqr (f v)) H u Hu). cbn in Z. nra. Qed.
Lemma vzero_ip f g : vzero f -> ip f g = 0.
Proof. intros H. unfold ip. rewrite <- (Rsum_zero U). apply Rsum_ext. intros u Hu. rewrite (H u Hu). ring. Qed.

Lemma app_add a x y u : app_op a (vadd x y) u = app_op a x u + app_op a y u.
Proof. unfold app_op. rewrite <- Rsum_plus. apply Rsum_ext. intros; unfold vadd; ring. Qed.
Lemma app_scal a c x u : app_op a (vscal c x) u = c * app_op a x u.
Proof. unfold app_op. rewrite <- Rsum_scal. apply Rsum_ext. intros; unfold vscal; ring. Qed.
Lemma app_sub a x y u : app_op a (vsub x y) u = app_op a x u - app_op a y u.
Proof.
  replace (app_op a x u - app_op a y u) with (app_op a x u + (-1) * app_op a y u) by ring. rewrite <- app_scal, <- app_add. apply Rsum_ext.
  intros; unfold vadd, vscal, vsub; ring.
Qed.
Lemma app_ext a x y u : veq x y -> app_op a x u = app_op a y u.
Proof. intros H. apply Rsum_ext. intros v Hv. rewrite (H v Hv). reflexivity. Qed.

Definition symmetric (a : P -> P -> R) : Prop := forall u v, In u U -> In v U -> a u v = a v u.
(** positive definite: <x, a x> > 0 unless x vanishes *)
Definition positive_definite (a : P -> P -> R) : Prop := forall x, ~ vzero x -> 0 < ip x (app_op a x).
Lemma symmetric_ip a x y : symmetric a -> ip x (app_op a y) = ip (app_op a x) y.
Proof.
  intros Hs. unfold ip, app_op.
  transitivity (Rsum (fun u => Rsum (fun v => x u * a u v * y v) U) U).
  - apply Rsum_ext. intros u _. rewrite <- Rsum_scal. apply Rsum_ext. intros; ring.
  - rewrite Rsum_swap. apply Rsum_ext. intros v Hv. rewrite (Rmult_comm _ (y v)), <- Rsum_scal. apply Rsum_ext. intros u Hu. rewrite (Hs u v Hu Hv). ring.
Qed.

(** *** At most [length U] pairwise orthogonal non-zero vectors *)
Fixpoint orthogonal (fs : list (P -> R)) : Prop :=
  match fs with [] => True | f :: rest => ip f f <> 0 /\ (forall g, In g rest -> ip f g = 0) /\ orthogonal rest end.
Lemma bessel fs : orthogonal fs -> forall v, Rsum (fun f => ip v f * ip v f / ip f f) fs <= ip v v.
Proof.
  induction fs as [|f fs IH]; intros Ho v; [rewrite Rsum_nil; apply ip_pos|]. destruct Ho as [Hn [Ho Hr]]. rewrite Rsum_cons.
  set (c := ip v f / ip f f). set (w := vsub v (vscal c f)).
  assert (E : ip w w = ip v v - ip v f * ip v f / ip f f).
  { unfold w. rewrite ip_sub_l, !ip_sub_r, !ip_scal_l, !ip_scal_r. rewrite (ip_sym f v). unfold c. field. exact Hn. }
  assert (E2 : Rsum (fun g => ip w g * ip w g / ip g g) fs = Rsum (fun g => ip v g * ip v g / ip g g) fs).
  { apply Rsum_ext. intros g Hg. replace (ip w g) with (ip v g); [reflexivity|]. unfold w. rewrite ip_sub_l, ip_scal_l, (Ho g Hg). ring. }
  specialize (IH Hr w). rewrite E2, E in IH. lra.
Qed.
Variable dec : forall a b : P, {a = b} + {a <> b}.
Definition delta (a u : P) : R := if dec u a then 1 else 0.
Lemma ip_delta a f : NoDup U -> In a U -> ip (delta a) f = f a.
Proof.
  intros Hn Ha. unfold ip. assert (G : forall l, NoDup l -> (In a l -> Rsum (fun u => delta a u * f u) l = f a) /\ (~ In a l -> Rsum (fun u => delta a u * f u) l = 0)).
  { induction l as [|b l IH]; intros Hl; [split; [intros []|rewrite Rsum_nil; reflexivity]|]. inversion Hl; subst. destruct (IH H2) as [I1 I2].
    rewrite Rsum_cons. unfold delta at 1 3. destruct (dec b a) as [->|Hb].
    - split; [intros _; rewrite (I2 H1); ring|intros H; exfalso; apply H; left; reflexivity].
    - split; [intros [H|H]; [congruence|rewrite (I1 H); ring]|intros H; rewrite I2; [ring|]]. intros H'. apply H. right; exact H'. }
  apply G; assumption.
Qed.
Theorem orthogonal_length fs : NoDup U -> orthogonal fs -> (length fs <= length U)%nat.
Proof.
  intros Hn Ho.
  assert (B : Rsum (fun u => Rsum (fun f => f u * f u / ip f f) fs) U <= Rsum (fun _ => 1) U).
  { assert (G : forall l, (forall u, In u l -> In u U) -> Rsum (fun u => Rsum (fun f => f u * f u / ip f f) fs) l <= Rsum (fun _ => 1) l).
    { induction l as [|u l IH]; intros Hl; rewrite ?Rsum_nil, ?Rsum_cons; [lra|].
      assert (Hu : In u U) by (apply Hl; left; reflexivity). assert (B := bessel fs Ho (delta u)).
      rewrite (Rsum_ext _ (fun f => f u * f u / ip f f)) in B by (intros f _; rewrite (ip_delta u f Hn Hu); reflexivity).
      rewrite (ip_delta u _ Hn Hu) in B. unfold delta in B. destruct (dec u u); [|congruence].
      specialize (IH (fun v Hv => Hl v (or_intror Hv))). lra. }
    apply G. auto. }
  rewrite Rsum_swap in B.
  assert (C : forall X (l : list X), Rsum (fun _ => 1) l = INR (length l)).
  { induction l as [|x l IH]; [apply Rsum_nil|]. rewrite Rsum_cons, IH. cbn [length]. rewrite S_INR. ring. }
  assert (E : Rsum (fun f => Rsum (fun u => f u * f u / ip f f) U) fs = Rsum (fun _ => 1) fs).
  { clear B. revert Ho. clear. intros Ho. induction fs as [|f fs IH]; [rewrite !Rsum_nil; reflexivity|]. destruct Ho as [Hn [_ Hr]]. rewrite !Rsum_cons, (IH Hr). f_equal.
    transitivity (/ ip f f * ip f f); [|field; exact Hn]. unfold ip at 3. rewrite <- Rsum_scal. apply Rsum_ext. intros u _. unfold Rdiv. ring. }
  rewrite E, !C in B. apply INR_le. exact B.
Qed.
End LinAlg.
