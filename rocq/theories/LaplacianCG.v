(** LaplacianCG: the iterates of the conjugate gradient method (CGSpec.v) on the n-point 1-D Laplacian with right-hand side 1 and initial guess 0, in
    closed form.  This is the system of /repo/test/Test05COOSolveCG.cpp and Test06CSRSolveCG.cpp. *)
From Coq Require Import Reals Lra.
From Verif Require Import Base Index Launch ExactSum LinAlg CGSpec PropsLaplacian.
Set Implicit Arguments.

(** distance of point [i] from the boundary of 0..n-1 *)
Definition depth (n i : nat) : nat := Nat.min i (n - 1 - i).
Section Closed.
Variable n : nat.
Local Open Scope R_scope.
Definition half : R := INR n / 2.
(** direction after k steps: constant on the points of depth >= k *)
Definition dir_size (k : nat) : R := match k with O => 1 | S _ => half - INR k + 1 end.
Definition p_form (k i : nat) : R := if (depth n i <? k)%nat then 0 else dir_size k.
(** residual after k steps *)
Definition r_form (k i : nat) : R :=
  match k with
  | O => 1
  | S k' => if (n <? 2 * k)%nat then 0 else if (depth n i <? k')%nat then 0 else if (depth n i =? k')%nat then INR k - half else 1
  end.
(** solution after k steps *)
Definition x_form (k i : nat) : R := let t := INR (Nat.min k (S (depth n i))) in t * half - t * (t - 1) / 2.
(** its squared norm *)
Definition norm_form (k : nat) : R := match k with O => INR n | S _ => if (n <? 2 * k)%nat then 0 else (INR n - 2 * INR k) * (INR n - 2 * INR k + 2) / 2 end.
End Closed.

Section Sums.
Local Open Scope R_scope.
Variable n : nat.
Lemma Rsum_const (c : R) a len : Rsum (fun _ => c) (seq a len) = INR len * c.
Proof. induction len as [|len IH]; [cbn [seq]; rewrite Rsum_nil; cbn; ring|]. rewrite seq_S, Rsum_app, IH, Rsum_cons, Rsum_nil, S_INR. ring. Qed.
Lemma Rsum_depth (f : nat -> R) k a b : (2 * S k <= n)%nat ->
  (forall i, (i < n)%nat -> (depth n i < k)%nat -> f i = 0) -> (forall i, (i < n)%nat -> depth n i = k -> f i = a) ->
  (forall i, (i < n)%nat -> (k < depth n i)%nat -> f i = b) -> Rsum f (seq 0 n) = 2 * a + (INR n - 2 * INR (S k)) * b.
Proof.
  intros Hk H0 H1 H2. unfold depth in *.
  assert (E : seq 0 n = (seq 0 k ++ [k]) ++ seq (S k) (n - 2 * S k) ++ [(n - 1 - k)%nat] ++ seq (n - k) k).
  { transitivity (seq 0 (k + (1 + ((n - 2 * S k) + (1 + k))))); [f_equal; lia|]. rewrite (seq_app k), (seq_app 1), (seq_app (n - 2 * S k)), (seq_app 1 k). cbn [Nat.add seq app]. rewrite <- app_assoc. cbn [app].
    f_equal. f_equal. replace (k + 1)%nat with (S k) by lia. f_equal. f_equal; [lia|]. f_equal. lia. }
  rewrite E, !Rsum_app, !Rsum_cons, !Rsum_nil.
  rewrite (Rsum_ext f (fun _ => 0) (seq 0 k)) by (intros i Hi; apply in_seq in Hi; apply H0; lia).
  rewrite (Rsum_ext f (fun _ => 0) (seq (n - k) k)) by (intros i Hi; apply in_seq in Hi; apply H0; lia).
  rewrite (Rsum_ext f (fun _ => b) (seq (S k) (n - 2 * S k))) by (intros i Hi; apply in_seq in Hi; apply H2; lia).
  rewrite !Rsum_const, (H1 k), (H1 (n - 1 - k)%nat) by lia. rewrite minus_INR by exact Hk. rewrite mult_INR. replace (INR 2) with 2 by (cbn; ring). ring.
Qed.
Lemma lap_row_sum_ext x y i : (i < n)%nat -> (forall j, (j < n)%nat -> x j = y j) -> lap_row_sum n x i = lap_row_sum n y i.
Proof.
  intros Hi H. unfold lap_row_sum, outside_zero. rewrite (H i Hi). destruct (Nat.ltb_spec (S i) n) as [L|L]; [rewrite (H (S i) L)|]; destruct i as [|i]; try reflexivity; rewrite (H i) by lia; reflexivity.
Qed.
(** the Laplacian of a vector that is constant on depth >= k *)
Lemma lap_block k c i : (2 * k < n)%nat -> (i < n)%nat ->
  lap_row_sum n (fun j => if (depth n j <? k)%nat then 0 else c) i
  = if (S (depth n i) =? k)%nat then - c else if (depth n i =? k)%nat then (if (2 * k + 1 =? n)%nat then 2 * c else c) else 0.
Proof.
  intros Hk Hi. unfold lap_row_sum, outside_zero, depth. destruct i as [|j].
  - repeat match goal with |- context [(?a <? ?b)%nat] => destruct (Nat.ltb_spec a b) | |- context [(?a =? ?b)%nat] => destruct (Nat.eqb_spec a b) end; try lia; try ring.
  - repeat match goal with |- context [(?a <? ?b)%nat] => destruct (Nat.ltb_spec a b) | |- context [(?a =? ?b)%nat] => destruct (Nat.eqb_spec a b) end; try lia; try ring.
Qed.
End Sums.

Section Algebra.
Local Open Scope R_scope.
Variable n : nat.
Lemma INR_lt2 k : (2 * k < n)%nat -> 2 * INR k + 1 <= INR n.
Proof. intros H. assert (L : (2 * k + 1 <= n)%nat) by lia. apply le_INR in L. rewrite plus_INR, mult_INR in L. cbn in L. lra. Qed.
Lemma dir_size_pos k : (2 * k < n)%nat -> 0 < dir_size n k.
Proof. intros H. apply INR_lt2 in H. destruct k as [|k]; unfold dir_size, half; [lra|]. lra. Qed.
Lemma norm_form_pos k : (2 * k < n)%nat -> 0 < norm_form n k.
Proof.
  intros H. assert (H' := INR_lt2 _ H). destruct k as [|k]; unfold norm_form; [cbn in H'; lra|]. destruct (Nat.ltb_spec n (2 * S k)); [lia|]. nra.
Qed.
Lemma alpha_c k : (2 * k < n)%nat -> norm_form n k / (2 * (dir_size n k * dir_size n k)) * dir_size n k = half n - INR k.
Proof.
  intros H. assert (P := dir_size_pos _ H). assert (H' := INR_lt2 _ H). destruct k as [|k]; unfold norm_form, dir_size, half in *; [cbn; field|].
  destruct (Nat.ltb_spec n (2 * S k)); [lia|]. field. lra.
Qed.
Lemma beta_c k : (2 * S k <= n)%nat -> norm_form n (S k) / norm_form n k * dir_size n k = half n - INR (S k).
Proof.
  intros H. assert (H0 : (2 * k < n)%nat) by lia. assert (H' := INR_lt2 _ H0). unfold norm_form at 1. destruct (Nat.ltb_spec n (2 * S k)); [lia|].
  destruct k as [|k]; unfold norm_form, dir_size, half in *; [cbn in *; field; lra|]. destruct (Nat.ltb_spec n (2 * S k)); [lia|]. rewrite (S_INR (S k)). field. lra.
Qed.
Lemma x_form_step k i : x_form n (S k) i = x_form n k i + (if (depth n i <? k)%nat then 0 else half n - INR k).
Proof.
  unfold x_form. destruct (Nat.ltb_spec (depth n i) k).
  - rewrite !Nat.min_r by lia. ring.
  - rewrite (Nat.min_l (S k)), (Nat.min_l k) by lia. rewrite S_INR. field.
Qed.
Lemma r_norm k : (2 * k <= n + 1)%nat -> Rsum (fun i => r_form n k i * r_form n k i) (seq 0 n) = norm_form n k.
Proof.
  intros H. destruct k as [|k].
  - unfold r_form, norm_form. rewrite Rsum_const. ring.
  - unfold r_form, norm_form. destruct (Nat.ltb_spec n (2 * S k)) as [L|L].
    + rewrite (Rsum_ext _ (fun _ => 0)); [apply Rsum_zero|]. intros; ring.
    + rewrite (@Rsum_depth n _ k ((INR (S k) - half n) * (INR (S k) - half n)) 1 L).
      * unfold half. field.
      * intros i Hi D. destruct (Nat.ltb_spec (depth n i) k); [ring|lia].
      * intros i Hi D. destruct (Nat.ltb_spec (depth n i) k); [lia|]. destruct (Nat.eqb_spec (depth n i) k); [ring|lia].
      * intros i Hi D. destruct (Nat.ltb_spec (depth n i) k); [lia|]. destruct (Nat.eqb_spec (depth n i) k); [lia|ring].
Qed.
Lemma p_energy k : (2 * k < n)%nat -> Rsum (fun i => p_form n k i * lap_row_sum n (p_form n k) i) (seq 0 n) = 2 * (dir_size n k * dir_size n k).
Proof.
  intros H. set (c := dir_size n k).
  assert (E : forall i, (i < n)%nat -> p_form n k i * lap_row_sum n (p_form n k) i = if (depth n i =? k)%nat then (if (2 * k + 1 =? n)%nat then 2 * (c * c) else c * c) else 0).
  { intros i Hi. unfold p_form at 2. fold c. rewrite (@lap_block n k c i H Hi). unfold p_form. fold c.
    destruct (Nat.ltb_spec (depth n i) k); destruct (Nat.eqb_spec (depth n i) k); destruct (Nat.eqb_spec (S (depth n i)) k); destruct (2 * k + 1 =? n)%nat; try lia; ring. }
  rewrite (Rsum_ext _ (fun i => if (depth n i =? k)%nat then (if (2 * k + 1 =? n)%nat then 2 * (c * c) else c * c) else 0)) by (intros i Hi; apply in_seq in Hi; apply E; lia).
  destruct (Nat.eqb_spec (2 * k + 1) n) as [L|L].
  - rewrite (@Rsum_seq_pick _ k); [|lia|].
    + unfold depth. destruct (Nat.eqb_spec (Nat.min k (n - 1 - k)) k); [reflexivity|lia].
    + intros j Hj Hne. unfold depth. destruct (Nat.eqb_spec (Nat.min j (n - 1 - j)) k); [lia|reflexivity].
  - rewrite (@Rsum_depth n _ k (c * c) 0); [ring|lia| | |]; intros i Hi D; destruct (Nat.eqb_spec (depth n i) k); try lia; reflexivity.
Qed.
Lemma r_form_step k i : (2 * k < n)%nat -> (i < n)%nat ->
  r_form n (S k) i = r_form n k i - norm_form n k / (2 * (dir_size n k * dir_size n k)) * lap_row_sum n (p_form n k) i.
Proof.
  intros H Hi. unfold p_form. rewrite (@lap_block n k (dir_size n k) i H Hi). assert (Al := alpha_c _ H). set (al := norm_form n k / _) in *. set (c := dir_size n k) in *.
  assert (D : (depth n i <= (n - 1) / 2)%nat).
  { unfold depth. apply Nat.div_le_lower_bound; lia. }
  assert (D2 : (2 * depth n i + 1 <= n)%nat) by (unfold depth; lia). clear D.
  destruct (Nat.eqb_spec (S (depth n i)) k) as [E1|E1]; [|destruct (Nat.eqb_spec (depth n i) k) as [E2|E2]; [destruct (Nat.eqb_spec (2 * k + 1) n) as [E3|E3]|]].
  - subst k. unfold r_form. destruct (Nat.ltb_spec n (2 * S (depth n i))); [lia|]. rewrite Nat.ltb_irrefl, Nat.eqb_refl.
    destruct (Nat.ltb_spec n (2 * S (S (depth n i)))); [lra|]. destruct (Nat.ltb_spec (depth n i) (S (depth n i))); [lra|lia].
  - assert (Ek : r_form n k i = 1).
    { destruct k as [|k]; [reflexivity|]. unfold r_form. destruct (Nat.ltb_spec n (2 * S k)); [lia|]. destruct (Nat.ltb_spec (depth n i) k); [lia|]. destruct (Nat.eqb_spec (depth n i) k); [lia|reflexivity]. }
    rewrite Ek. unfold r_form. destruct (Nat.ltb_spec n (2 * S k)); [|lia]. assert (Hn : INR n = 2 * INR k + 1) by (rewrite <- E3, plus_INR, mult_INR; cbn; ring). unfold half in Al. rewrite Hn in Al. lra.
  - assert (Ek : r_form n k i = 1).
    { destruct k as [|k]; [reflexivity|]. unfold r_form. destruct (Nat.ltb_spec n (2 * S k)); [lia|]. destruct (Nat.ltb_spec (depth n i) k); [lia|]. destruct (Nat.eqb_spec (depth n i) k); [lia|reflexivity]. }
    rewrite Ek. unfold r_form. destruct (Nat.ltb_spec n (2 * S k)); [lia|]. destruct (Nat.ltb_spec (depth n i) k); [lia|]. destruct (Nat.eqb_spec (depth n i) k); [|lia]. rewrite S_INR. lra.
  - rewrite Rmult_0_r, Rminus_0_r. unfold r_form. destruct k as [|k].
    + destruct (Nat.ltb_spec n (2 * 1)); [lia|]. destruct (Nat.ltb_spec (depth n i) 0); [lia|]. destruct (Nat.eqb_spec (depth n i) 0); [lia|reflexivity].
    + destruct (Nat.ltb_spec n (2 * S (S k))); destruct (Nat.ltb_spec n (2 * S k)); try lia; destruct (Nat.ltb_spec (depth n i) (S k)); destruct (Nat.ltb_spec (depth n i) k); try lia; try reflexivity;
        destruct (Nat.eqb_spec (depth n i) (S k)); destruct (Nat.eqb_spec (depth n i) k); try lia; reflexivity.
Qed.
Lemma p_form_step k i : (2 * k < n)%nat -> (i < n)%nat -> p_form n (S k) i = r_form n (S k) i + norm_form n (S k) / norm_form n k * p_form n k i.
Proof.
  intros H Hi. assert (D2 : (2 * depth n i + 1 <= n)%nat) by (unfold depth; lia). unfold p_form.
  destruct (Nat.ltb_spec n (2 * S k)) as [L|L].
  - replace (norm_form n (S k)) with 0 by (unfold norm_form; destruct (Nat.ltb_spec n (2 * S k)); [reflexivity|lia]).
    unfold r_form. destruct (Nat.ltb_spec n (2 * S k)); [|lia]. destruct (Nat.ltb_spec (depth n i) (S k)); [unfold Rdiv; ring|lia].
  - assert (B := beta_c L). set (be := norm_form n (S k) / norm_form n k) in *. unfold r_form. destruct (Nat.ltb_spec n (2 * S k)); [lia|].
    destruct (Nat.ltb_spec (depth n i) (S k)); destruct (Nat.ltb_spec (depth n i) k); destruct (Nat.eqb_spec (depth n i) k); try lia; try lra.
    unfold dir_size at 1. lra.
Qed.
End Algebra.

(** ** The iterates *)
Section Iterates.
Local Open Scope R_scope.
Variable n : nat.
Variable U : list (nat * point).
Variable a : nat * point -> nat * point -> R.
Hypothesis HU : Permutation U (map (fun i => (0%nat, [Z.of_nat i])) (seq 0 n)).
Hypothesis Ha : forall x i, (i < n)%nat -> app_op U a x (0%nat, [Z.of_nat i]) = lap_row_sum n (at_index x) i.
Notation t := (cg_iter U a (fun _ => 0) (fun _ => 1)).
Lemma ip_index f g : ip U f g = Rsum (fun i => at_index f i * at_index g i) (seq 0 n).
Proof. unfold ip. rewrite (Rsum_perm _ HU), Rsum_map. reflexivity. Qed.
Theorem cg_closed_form k : (2 * k <= n + 1)%nat -> forall i, (i < n)%nat ->
  at_index (it_x (t k)) i = x_form n k i /\ at_index (it_r (t k)) i = r_form n k i /\ at_index (it_p (t k)) i = p_form n k i.
Proof.
  induction k as [|k IH]; intros Hk i Hi.
  - cbn [cg_iter it_x it_r it_p]. unfold at_index, x_form, r_form, p_form, dir_size. cbn. split; [lra|]. split; reflexivity.
  - assert (H : (2 * k < n)%nat) by lia. specialize (IH ltac:(lia)).
    assert (Nk : forall j, (2 * j <= n + 1)%nat -> (forall i, (i < n)%nat -> at_index (it_r (t j)) i = r_form n j i) -> ip U (it_r (t j)) (it_r (t j)) = norm_form n j).
    { intros j Hj Hr. rewrite ip_index, <- (@r_norm n _ Hj). apply Rsum_ext. intros l Hl. apply in_seq in Hl. rewrite Hr by lia. reflexivity. }
    assert (Ek : ip U (it_r (t k)) (it_r (t k)) = norm_form n k) by (apply Nk; [lia|]; intros l Hl; apply (IH l Hl)).
    assert (Lp : forall l, (l < n)%nat -> at_index (app_op U a (it_p (t k))) l = lap_row_sum n (p_form n k) l).
    { intros l Hl. unfold at_index at 1. rewrite Ha by exact Hl. apply lap_row_sum_ext; [exact Hl|]. intros l' Hl'. apply (IH l' Hl'). }
    assert (Pk : ip U (it_p (t k)) (app_op U a (it_p (t k))) = 2 * (dir_size n k * dir_size n k)).
    { rewrite ip_index, <- (p_energy _ H). apply Rsum_ext. intros l Hl. apply in_seq in Hl. rewrite Lp by lia. destruct (IH l ltac:(lia)) as [_ [_ ->]]. reflexivity. }
    assert (Rk : forall l, (l < n)%nat -> at_index (it_r (t (S k))) l = r_form n (S k) l).
    { intros l Hl. cbn [cg_iter]. unfold cg_next. cbn [it_r]. rewrite Ek, Pk. unfold at_index at 1. rewrite (@r_form_step n k l H Hl).
      fold (at_index (it_r (t k)) l). fold (at_index (app_op U a (it_p (t k))) l). rewrite Lp by exact Hl. destruct (IH l Hl) as [_ [-> _]]. reflexivity. }
    assert (ESk := Nk (S k) Hk Rk). destruct (IH i Hi) as [Ix [Ir Ip]]. split; [|split; [apply Rk; exact Hi|]].
    + cbn [cg_iter]. unfold cg_next. cbn [it_x]. rewrite Ek, Pk. unfold at_index at 1. fold (at_index (it_x (t k)) i). fold (at_index (it_p (t k)) i). rewrite Ix, Ip, x_form_step.
      f_equal. unfold p_form. destruct (Nat.ltb_spec (depth n i) k); [ring|]. apply alpha_c. exact H.
    + rewrite (@p_form_step n k i H Hi). rewrite <- ESk, <- (Rk i Hi), <- Ip, <- Ek. reflexivity.
Qed.
Theorem cg_norms_closed_form k : (2 * k <= n + 1)%nat -> ip U (it_r (t k)) (it_r (t k)) = norm_form n k.
Proof. intros Hk. rewrite ip_index, <- (@r_norm n _ Hk). apply Rsum_ext. intros l Hl. apply in_seq in Hl. destruct (@cg_closed_form k Hk l) as [_ [-> _]]; [lia|reflexivity]. Qed.
Theorem cg_steps_defined k : (2 * k < n)%nat -> cg_defined U a (fun _ => 0) (fun _ => 1) k.
Proof.
  intros H. split.
  - rewrite ip_index. rewrite (Rsum_ext _ (fun i => p_form n k i * lap_row_sum n (p_form n k) i)).
    + rewrite (p_energy _ H). assert (P := dir_size_pos _ H). nra.
    + intros l Hl. apply in_seq in Hl. assert (Hk : (2 * k <= n + 1)%nat) by lia. destruct (@cg_closed_form k Hk l) as [_ [_ ->]]; [lia|]. f_equal.
      unfold at_index at 1. rewrite Ha by lia. apply lap_row_sum_ext; [lia|]. intros l' Hl'. apply (@cg_closed_form k Hk l' Hl').
  - rewrite cg_norms_closed_form by lia. assert (P := norm_form_pos _ H). lra.
Qed.
End Iterates.
