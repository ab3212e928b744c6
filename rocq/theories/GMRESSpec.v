(** GMRESSpec: the textbook Arnoldi process over the reals (classical Gram-Schmidt; specification, independent of the code). *)
From Coq Require Import Reals Lra.
From Verif Require Import Base ExactSum LinAlg.
Set Implicit Arguments.
Local Open Scope R_scope.

Section Arnoldi.
Variable P : Type.
Variable U : list P.
Variable a : P -> P -> R.
Variable r : P -> R.     (* the first residual *)
Notation "⟨ f , g ⟩" := (ip U f g).
Notation A := (app_op U a).
Definition norm (f : P -> R) : R := sqrt ⟨f, f⟩.
Definition normalise (f : P -> R) : P -> R := fun u => f u / norm f.
(** [w] minus its components along f 0, ..., f (n-1) *)
Definition project_out (f : nat -> P -> R) (n : nat) (w : P -> R) : P -> R :=
  fun u => w u - Rsum (fun k => ⟨f k, w⟩ * f k u) (seq 0 n).
(** q 0 = r / |r|; q (j+1) is the normalised part of A (q j) orthogonal to q 0 .. q j *)
Fixpoint arnoldi (n : nat) : nat -> P -> R :=
  match n with
  | O => fun _ => normalise r
  | S m => fun i => if (i <=? m)%nat then arnoldi m i else normalise (project_out (arnoldi m) (S m) (A (arnoldi m m)))
  end.
Definition q (i : nat) : P -> R := arnoldi i i.
Definition w (j : nat) : P -> R := project_out q (S j) (A (q j)).
(** the first [m] vectors exist *)
Definition arnoldi_defined (m : nat) : Prop := ⟨r, r⟩ <> 0 /\ forall j, (j + 1 < m)%nat -> ⟨w j, w j⟩ <> 0.

Lemma arnoldi_q n i : (i <= n)%nat -> arnoldi n i = q i.
Proof.
  induction n as [|n IH]; intros H; [replace i with 0%nat by lia; reflexivity|]. destruct (Nat.eq_dec i (S n)) as [-> |Ne]; [reflexivity|].
  cbn [arnoldi]. destruct (Nat.leb_spec i n); [apply IH; lia|lia].
Qed.
Lemma project_out_ext f g n v u : (forall k, (k < n)%nat -> f k = g k) -> project_out f n v u = project_out g n v u.
Proof. intros H. unfold project_out. f_equal. apply Rsum_ext. intros k Hk. apply in_seq in Hk. rewrite H by lia. reflexivity. Qed.
Lemma normalise_ext f g u : (forall v, f v = g v) -> normalise f u = normalise g u.
Proof. intros H. unfold normalise, norm. rewrite H. do 2 f_equal. apply ip_ext; intros v _; apply H. Qed.
Lemma q_succ j u : q (S j) u = normalise (w j) u.
Proof.
  unfold q at 1. cbn [arnoldi]. destruct (Nat.leb_spec (S j) j); [lia|]. apply normalise_ext. intros v. unfold w. rewrite (arnoldi_q (le_n j)).
  apply project_out_ext. intros k Hk. apply arnoldi_q. lia.
Qed.
Lemma norm_pos f : ⟨f, f⟩ <> 0 -> 0 < norm f.
Proof. intros H. apply sqrt_lt_R0. pose proof (ip_pos U f). lra. Qed.
Lemma norm_sq f : norm f * norm f = ⟨f, f⟩.
Proof. apply sqrt_sqrt. apply ip_pos. Qed.
Lemma ip_normalise f g : ⟨g, normalise f⟩ = ⟨g, f⟩ / norm f.
Proof.
  transitivity (⟨g, vscal (/ norm f) f⟩); [apply ip_ext; intros u _; [reflexivity|unfold normalise, vscal, Rdiv; ring]|]. rewrite ip_scal_r. unfold Rdiv. ring.
Qed.
Lemma normalise_unit f : ⟨f, f⟩ <> 0 -> ⟨normalise f, normalise f⟩ = 1.
Proof. intros H. rewrite ip_normalise, ip_sym, ip_normalise, <- norm_sq. assert (N := @norm_pos _ H). field. lra. Qed.
Lemma ip_project_out f n v g : ⟨g, project_out f n v⟩ = ⟨g, v⟩ - Rsum (fun k => ⟨f k, v⟩ * ⟨g, f k⟩) (seq 0 n).
Proof.
  change (project_out f n v) with (vsub v (fun u => Rsum (fun k => ⟨f k, v⟩ * f k u) (seq 0 n))). rewrite ip_sub_r. f_equal.
  unfold ip at 1. transitivity (Rsum (fun u => Rsum (fun k => ⟨f k, v⟩ * (g u * f k u)) (seq 0 n)) U).
  - apply Rsum_ext. intros u _. rewrite <- Rsum_scal. apply Rsum_ext. intros; ring.
  - rewrite Rsum_swap. apply Rsum_ext. intros k _. change (⟨g, f k⟩) with (Rsum (fun u => g u * f k u) U). rewrite <- Rsum_scal. reflexivity.
Qed.
Lemma Rsum_one (f : nat -> R) n k : (k < n)%nat -> (forall i, (i < n)%nat -> i <> k -> f i = 0) -> Rsum f (seq 0 n) = f k.
Proof.
  intros Hk H. replace n with (k + S (n - S k))%nat by lia. rewrite seq_app, Rsum_app. cbn [seq]. rewrite Rsum_cons, Nat.add_0_l.
  rewrite (Rsum_ext _ (fun _ => 0) (seq 0 k)) by (intros i Hi; apply in_seq in Hi; apply H; lia).
  rewrite (Rsum_ext _ (fun _ => 0) (seq (S k) _)) by (intros i Hi; apply in_seq in Hi; apply H; lia). rewrite !Rsum_zero. ring.
Qed.

Definition orthonormal (f : nat -> P -> R) (m : nat) : Prop :=
  forall i j, (i < m)%nat -> (j < m)%nat -> ⟨f i, f j⟩ = if Nat.eq_dec i j then 1 else 0.
Lemma project_out_orth f n v k : orthonormal f n -> (k < n)%nat -> ⟨f k, project_out f n v⟩ = 0.
Proof.
  intros Ho Hk. rewrite ip_project_out, (Rsum_one _ Hk).
  - rewrite Ho by lia. destruct (Nat.eq_dec k k); [ring|congruence].
  - intros i Hi Ne. rewrite Ho by lia. destruct (Nat.eq_dec k i); [congruence|ring].
Qed.
Theorem q_orthonormal m : arnoldi_defined m -> orthonormal q m.
Proof.
  intros [D0 D]. induction m as [|m IH]; [intros i j Hi; lia|].
  assert (IHm : orthonormal q m) by (apply IH; intros j Hj; apply D; lia). clear IH.
  assert (G : ⟨q m, q m⟩ = 1 /\ forall i, (i < m)%nat -> ⟨q i, q m⟩ = 0).
  { destruct m as [|m].
    - split; [apply normalise_unit; exact D0|intros i Hi; lia].
    - assert (Dm := D m ltac:(lia)). assert (Eq : forall g, ⟨g, q (S m)⟩ = ⟨g, normalise (w m)⟩) by (intros g; apply ip_ext; intros u _; [reflexivity|apply q_succ]).
      rewrite Eq, ip_sym, Eq.
      split; [apply normalise_unit; exact Dm|]. intros i Hi. rewrite Eq, ip_normalise. unfold w at 1. rewrite project_out_orth; [unfold Rdiv; ring|exact IHm|exact Hi]. }
  destruct G as [G1 G2]. intros i j Hi Hj. destruct (Nat.eq_dec i m) as [-> |Ni], (Nat.eq_dec j m) as [-> |Nj].
  - destruct (Nat.eq_dec m m); [exact G1|congruence].
  - destruct (Nat.eq_dec m j); [congruence|]. rewrite ip_sym. apply G2. lia.
  - destruct (Nat.eq_dec i m); [congruence|]. apply G2. lia.
  - apply IHm; lia.
Qed.
Lemma w_orth m j i : arnoldi_defined m -> (j < m)%nat -> (i <= j)%nat -> ⟨q i, w j⟩ = 0.
Proof.
  intros D Hj Hi. unfold w. apply project_out_orth; [|lia]. assert (O := q_orthonormal D). intros k l Hk Hl. apply O; lia.
Qed.
(** the Arnoldi relation *)
Lemma arnoldi_relation j u : A (q j) u = Rsum (fun k => ⟨q k, A (q j)⟩ * q k u) (seq 0 (S j)) + w j u.
Proof. unfold w, project_out. ring. Qed.
Lemma w_scaled j u : ⟨w j, w j⟩ <> 0 -> w j u = norm (w j) * q (S j) u.
Proof. intros H. rewrite q_succ. unfold normalise. assert (N := @norm_pos _ H). field. lra. Qed.
(** modified Gram-Schmidt: removing the components one after the other *)
Lemma project_step f n v u : orthonormal f (S n) -> project_out f (S n) v u = project_out f n v u - ⟨f n, project_out f n v⟩ * f n u.
Proof.
  intros Ho. assert (E : ⟨f n, project_out f n v⟩ = ⟨f n, v⟩).
  { rewrite ip_project_out, (Rsum_ext _ (fun _ => 0)); [rewrite Rsum_zero; ring|]. intros k Hk. apply in_seq in Hk. rewrite Ho by lia. destruct (Nat.eq_dec n k); [lia|ring]. }
  rewrite E. unfold project_out. rewrite seq_S, Rsum_app, Rsum_cons, Rsum_nil, Nat.add_0_l. ring.
Qed.
Lemma project_coeff f n v : orthonormal f (S n) -> ⟨f n, project_out f n v⟩ = ⟨f n, v⟩.
Proof.
  intros Ho. rewrite ip_project_out, (Rsum_ext _ (fun _ => 0)); [rewrite Rsum_zero; ring|]. intros k Hk. apply in_seq in Hk. rewrite Ho by lia. destruct (Nat.eq_dec n k); [lia|ring].
Qed.
(** the square of the length of the sum of the basis vectors *)
Lemma sum_length m : orthonormal q m -> ⟨fun u => Rsum (fun j => q j u) (seq 0 m), fun u => Rsum (fun j => q j u) (seq 0 m)⟩ = INR m.
Proof.
  induction m as [|m IH]; intros Ho.
  - apply vzero_ip. intros u _. apply Rsum_nil.
  - assert (E : forall u, Rsum (fun j => q j u) (seq 0 (S m)) = vadd (fun u => Rsum (fun j => q j u) (seq 0 m)) (q m) u).
    { intros u. rewrite seq_S, Rsum_app, Rsum_cons, Rsum_nil. unfold vadd. rewrite Nat.add_0_l. ring. }
    rewrite (ip_ext (U := U) (fun u _ => E u) (fun u _ => E u)), !ip_add_l, !ip_add_r, IH by (intros i j Hi Hj; apply Ho; lia).
    assert (Z : ⟨q m, fun u => Rsum (fun j => q j u) (seq 0 m)⟩ = 0).
    { unfold ip. transitivity (Rsum (fun u => Rsum (fun j => q m u * q j u) (seq 0 m)) U); [apply Rsum_ext; intros u _; rewrite <- Rsum_scal; reflexivity|].
      rewrite Rsum_swap, (Rsum_ext _ (fun _ => 0)); [apply Rsum_zero|]. intros k Hk. apply in_seq in Hk. change (⟨q m, q k⟩ = 0). rewrite Ho by lia. destruct (Nat.eq_dec m k); [lia|reflexivity]. }
    rewrite (ip_sym U _ (q m)), Z, Ho by lia. destruct (Nat.eq_dec m m); [|congruence]. rewrite S_INR. ring.
Qed.
(** there are no more than |U| orthonormal vectors *)
Theorem arnoldi_bounded (dec : forall x y : P, {x = y} + {x <> y}) m : NoDup U -> (0 < m)%nat -> arnoldi_defined m -> (m <= length U)%nat.
Proof.
  intros Hnd Hm D. assert (O := q_orthonormal D). rewrite <- (seq_length m 0), <- (map_length q). apply (orthogonal_length dec (U:=U)); [exact Hnd|].
  clear D Hm. assert (G : forall n s, (s + n <= m)%nat -> orthogonal U (map q (seq s n))).
  { induction n as [|n IH]; intros s Hs; cbn [seq map orthogonal]; [exact I|]. split; [|split; [|apply IH; lia]].
    - rewrite O by lia. destruct (Nat.eq_dec s s); [lra|congruence].
    - intros h Hh. apply in_map_iff in Hh. destruct Hh as [k [<- Hk]]. apply in_seq in Hk. rewrite O by lia. destruct (Nat.eq_dec s k); [lia|reflexivity]. }
  apply G. lia.
Qed.
End Arnoldi.

(** The iteration the solver performs: x' = x + q 0 + ... + q (m-1), with residual b - a x. *)
Section Iter.
Variable P : Type.
Variable U : list P.
Variable a : P -> P -> R.
Variables x0 b : P -> R.
Variable m : nat.
Definition residual (x : P -> R) : P -> R := fun u => b u - app_op U a x u.
Fixpoint sum_iter (k : nat) : P -> R :=
  match k with O => x0 | S k' => fun u => sum_iter k' u + Rsum (fun j => q U a (residual (sum_iter k')) j u) (seq 0 m) end.
Definition sum_defined (k : nat) : Prop := arnoldi_defined U a (residual (sum_iter k)) m.
End Iter.
