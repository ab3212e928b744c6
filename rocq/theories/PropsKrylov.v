(** PropsKrylov: property C87 (the Python reference iterations). *)
From Coq Require Import Reals Lra Classical.
From Verif Require Import Base Index Arith Async Launch Vector Matrix MatrixSpec ExactSum Builder Planner Solvers PlannerFacts PlannerSetup Exec PropsVector PropsMatrix PropsPlanner LinAlg CGSpec CGMath SolverFacts PropsSolver PropsCG Krylov.
Set Implicit Arguments.

(** ** Specification *)
(** [u] and [v] agree on the indices 0 .. n-1 (undefined where the other one is) *)
Definition same_array (n : nat) (u v : nat -> option R) : Prop := forall i, i < n -> u i = v i.
(** no entry of [u] is defined *)
Definition all_undefined (n : nat) (u : nat -> option R) : Prop := forall i, i < n -> u i = None.
(** [u] holds the real numbers [f] *)
Definition array_is (n : nat) (u : nat -> option R) (f : nat -> R) : Prop := forall i, i < n -> u i = Some (f i).
Definition real_matrix (n : nat) (m : nat -> nat -> option R) (a : nat -> nat -> R) : Prop := forall i, i < n -> array_is n (m i) (a i).
(** b - A x *)
Definition residual (n : nat) (a : nat -> nat -> R) (b x : nat -> R) (i : nat) : R := (b i - app_op (seq 0 n) a x i)%R.

(** ** Proofs *)
Local Notation "a ⊕ b" := (lift2 Rplus a b) (at level 50, left associativity).
Local Notation "a ⊖ b" := (lift2 Rminus a b) (at level 50, left associativity).
Local Notation "a ⊗ b" := (lift2 Rmult a b) (at level 40, left associativity).
Lemma lift2_none A B C (f : A -> B -> C) x : lift2 f x None = None.
Proof. destruct x; reflexivity. Qed.
Section Facts.
Variable n : nat.
Notation U := (seq 0 n).
Lemma in_U i : In i U <-> i < n.
Proof. rewrite in_seq. lia. Qed.
Lemma dot_exact u v : dot exact n u v = osum (map (fun i => u i ⊗ v i) U).
Proof.
  unfold dot. cbn [aadd amul a0 exact]. assert (G : forall l acc, fold_left (fun acc i => acc ⊕ u i ⊗ v i) l acc = acc ⊕ osum (map (fun i => u i ⊗ v i) l)).
  { induction l as [|i l IH]; intros acc; [cbn; rewrite oplus_0_r; reflexivity|]. cbn [fold_left map]. rewrite IH. change (osum (u i ⊗ v i :: map (fun i => u i ⊗ v i) l)) with ((u i ⊗ v i) ⊕ osum (map (fun i => u i ⊗ v i) l)). symmetry. apply oplus_assoc. }
  rewrite G, oplus_0_l. reflexivity.
Qed.
Lemma dot_ext u u' v v' : same_array n u u' -> same_array n v v' -> dot exact n u v = dot exact n u' v'.
Proof. intros H1 H2. rewrite !dot_exact. f_equal. apply map_ext_in. intros i Hi. apply in_U in Hi. rewrite (H1 i Hi), (H2 i Hi). reflexivity. Qed.
Lemma dot_is u v f g : array_is n u f -> array_is n v g -> dot exact n u v = Some (ip U f g).
Proof.
  intros H1 H2. rewrite dot_exact. unfold ip. rewrite <- (osum_some (fun i => (f i * g i)%R)). f_equal. apply map_ext_in. intros i Hi. apply in_U in Hi. rewrite (H1 i Hi), (H2 i Hi). reflexivity.
Qed.
Lemma dot_none u v : 0 < n -> all_undefined n v -> dot exact n u v = None.
Proof.
  intros Hn H. rewrite dot_exact. destruct (osum (map (fun i => u i ⊗ v i) U)) as [z|] eqn:E; [|reflexivity].
  exfalso. apply (osum_inv _ _ E 0); [apply in_U; exact Hn|]. rewrite (H 0 Hn). destruct (u 0); reflexivity.
Qed.
Variable m : nat -> nat -> option R.
Lemma matmul_ext u v : same_array n u v -> same_array n (matmul exact n m u) (matmul exact n m v).
Proof. intros H i Hi. apply dot_ext; [intros j _; reflexivity|exact H]. Qed.
Lemma matmul_none u : 0 < n -> all_undefined n u -> all_undefined n (matmul exact n m u).
Proof. intros Hn H i _. apply dot_none; assumption. Qed.
Variable a : nat -> nat -> R.
Hypothesis Hm : real_matrix n m a.
Lemma matmul_is u f : array_is n u f -> array_is n (matmul exact n m u) (app_op U a f).
Proof. intros H i Hi. unfold matmul. rewrite (dot_is (Hm Hi) H). reflexivity. Qed.

Variable b : nat -> option R.
Notation body := (cg_body exact n m).
(** equal up to entries outside the arrays *)
Record like (v w : vars (option R)) : Prop := mk_like { like_x : same_array n (v_x v) (v_x w); like_r : same_array n (v_r v) (v_r w); like_p : same_array n (v_p v) (v_p w);
  like_n : v_r_norm2 v = v_r_norm2 w; like_its : Forall2 (same_array n) (its v) (its w) }.
Lemma like_body v w : like v w -> like (body v) (body w).
Proof.
  intros [Hx Hr Hp Hnn Hi]. unfold cg_body.
  assert (Q := matmul_ext Hp). assert (D := dot_ext Hp Q). rewrite Hnn, D. set (al := adiv exact (v_r_norm2 w) (dot exact n (v_p w) (matmul exact n m (v_p w)))).
  assert (X' : same_array n (fun i => aadd exact (v_x v i) (amul exact al (v_p v i))) (fun i => aadd exact (v_x w i) (amul exact al (v_p w i)))) by (intros i Hi'; rewrite (Hx i Hi'), (Hp i Hi'); reflexivity).
  assert (R' : same_array n (fun i => asub exact (v_r v i) (amul exact al (matmul exact n m (v_p v) i))) (fun i => asub exact (v_r w i) (amul exact al (matmul exact n m (v_p w) i)))) by (intros i Hi'; rewrite (Hr i Hi'), (Q i Hi'); reflexivity).
  assert (N := dot_ext R' R'). constructor; cbn [v_x v_r v_p v_r_norm2 its]; auto.
  - intros i Hi'. rewrite N, (Hp i Hi'), (R' i Hi'). reflexivity.
  - apply Forall2_app; [exact Hi|]. constructor; [exact X'|constructor].
Qed.
Lemma same_refl l : Forall2 (same_array n) l l.
Proof. induction l; constructor; auto. intros i _. reflexivity. Qed.
Lemma like_refl v : like v v.
Proof. constructor; try (intros i _; reflexivity); try reflexivity. apply same_refl. Qed.
Lemma like_trans u v w : like u v -> like v w -> like u w.
Proof.
  intros [A1 A2 A3 A4 A5] [B1 B2 B3 B4 B5]. constructor.
  - intros i Hi. rewrite (A1 i Hi). exact (B1 i Hi).
  - intros i Hi. rewrite (A2 i Hi). exact (B2 i Hi).
  - intros i Hi. rewrite (A3 i Hi). exact (B3 i Hi).
  - congruence.
  - revert B5. generalize (its w). induction A5 as [|x y l l' H _ IH]; intros l'' H2; inversion H2; subst; constructor; [intros i Hi; rewrite (H i Hi); auto|apply IH; assumption].
Qed.
Lemma like_steps k v w : like v w -> like (Nat.iter k body v) (Nat.iter k body w).
Proof. intros H. induction k as [|k IH]; [exact H|]. apply like_body. exact IH. Qed.

(** either the direction is undefined throughout or direction and residual are real *)
Definition tame (v : vars (option R)) : Prop := all_undefined n (v_p v) \/ exists p r, array_is n (v_p v) p /\ array_is n (v_r v) r.
Lemma half_step v : 0 < n -> tame v -> like (double_cg_body exact n m v) (body (body v)).
Proof.
  intros Hn Ht. unfold tame in Ht. unfold double_cg_body, cg_body. cbn [v_x v_r v_p v_r_norm2 its].
  set (p := v_p v) in *. set (q := matmul exact n m p). set (al := adiv exact (v_r_norm2 v) (dot exact n p q)).
  set (r' := fun i => asub exact (v_r v i) (amul exact al (q i))). set (be := adiv exact (dot exact n r' r') (v_r_norm2 v)).
  set (p' := fun i => aadd exact (amul exact (p i) be) (r' i)).
  set (q' := fun i => asub exact (aadd exact (amul exact (q i) be) (matmul exact n m (v_r v) i)) (amul exact al (matmul exact n m q i))).
  assert (K : same_array n q' (matmul exact n m p')).
  { destruct Ht as [Hu|[fp [fr [Hp Hr]]]].
    - assert (P' : all_undefined n p') by (intros i Hi; unfold p'; cbn; rewrite (Hu i Hi); reflexivity).
      assert (Q := matmul_none Hn Hu). intros i Hi. rewrite (matmul_none Hn P' Hi). unfold q'. cbn. unfold q. rewrite (Q i Hi). cbn. reflexivity.
    - assert (Q := matmul_is Hp). fold q in Q. assert (S := matmul_is Hr). assert (Tt := matmul_is Q).
      destruct al as [al'|] eqn:Eal.
      + assert (R' : array_is n r' (vsub fr (vscal al' (app_op U a fp)))) by (intros i Hi; unfold r'; rewrite (Hr i Hi), (Q i Hi); reflexivity).
        destruct be as [be'|] eqn:Ebe.
        * assert (P' : array_is n p' (vadd (vscal be' fp) (vsub fr (vscal al' (app_op U a fp))))).
          { intros i Hi. unfold p'. rewrite (Hp i Hi), (R' i Hi). cbn. unfold vadd, vscal. do 2 f_equal. ring. }
          intros i Hi. rewrite (matmul_is P' Hi). unfold q'. rewrite (Q i Hi), (S i Hi), (Tt i Hi). cbn. rewrite app_add, app_sub, !app_scal. f_equal. ring.
        * assert (P' : all_undefined n p') by (intros i Hi; unfold p'; cbn; destruct (p i); reflexivity).
          intros i Hi. rewrite (matmul_none Hn P' Hi). unfold q'. cbn. destruct (q i); reflexivity.
      + assert (R' : all_undefined n r') by (intros i Hi; unfold r'; cbn; destruct (v_r v i); reflexivity).
        assert (P' : all_undefined n p') by (intros i Hi; change (p' i) with ((p i ⊗ be) ⊕ r' i); rewrite (R' i Hi); destruct (p i ⊗ be); reflexivity).
        intros i Hi. rewrite (matmul_none Hn P' Hi). unfold q'. cbn. apply lift2_none. }
  assert (Pr : same_array n p' p') by (intros i _; reflexivity).
  assert (D := dot_ext Pr K).
  pose (x1 := fun i => aadd exact (v_x v i) (amul exact al (p i))).
  pose (al2 := fun w : nat -> option R => adiv exact (dot exact n r' r') (dot exact n p' w)).
  pose (x2 := fun w i => aadd exact (x1 i) (amul exact (al2 w) (p' i))).
  pose (r2 := fun w i => asub exact (r' i) (amul exact (al2 w) (w i))).
  pose (be2 := fun w => adiv exact (dot exact n (r2 w) (r2 w)) (dot exact n r' r')).
  pose (q2 := matmul exact n m p').
  change (like (mk_vars (x2 q') (r2 q') (fun i => aadd exact (r2 q' i) (amul exact (be2 q') (p' i))) (dot exact n (r2 q') (r2 q')) ((its v ++ [x1]) ++ [x2 q']))
               (mk_vars (x2 q2) (r2 q2) (fun i => aadd exact (amul exact (p' i) (be2 q2)) (r2 q2 i)) (dot exact n (r2 q2) (r2 q2)) ((its v ++ [x1]) ++ [x2 q2]))).
  assert (E : al2 q' = al2 q2) by (unfold al2; rewrite D; reflexivity).
  assert (X2 : same_array n (x2 q') (x2 q2)) by (intros i _; unfold x2; rewrite E; reflexivity).
  assert (R2 : same_array n (r2 q') (r2 q2)) by (intros i Hi; unfold r2; rewrite E, (K i Hi); reflexivity).
  assert (N := dot_ext R2 R2). assert (B2 : be2 q' = be2 q2) by (unfold be2; rewrite N; reflexivity).
  constructor; cbn [v_x v_r v_p v_r_norm2 its]; auto.
  - intros i Hi. rewrite (R2 i Hi), B2. change (aadd exact) with (lift2 Rplus). rewrite oplus_comm. f_equal. change (amul exact) with (lift2 Rmult). destruct (p' i); destruct (be2 q2); cbn; try reflexivity. f_equal. ring.
  - apply Forall2_app; [apply same_refl|]. constructor; [exact X2|constructor].
Qed.
Lemma tame_body v : 0 < n -> tame v -> tame (body v).
Proof.
  intros Hn Ht. unfold tame in *. unfold cg_body. cbn [v_p v_r].
  set (p := v_p v) in *. set (q := matmul exact n m p). set (al := adiv exact (v_r_norm2 v) (dot exact n p q)).
  set (r' := fun i => asub exact (v_r v i) (amul exact al (q i))). set (be := adiv exact (dot exact n r' r') (v_r_norm2 v)).
  destruct Ht as [Hu|[fp [fr [Hp Hr]]]]; [left; intros i Hi; rewrite (Hu i Hi); reflexivity|].
  assert (Q := matmul_is Hp). fold q in Q.
  destruct al as [al'|] eqn:Eal.
  - assert (R' : array_is n r' (vsub fr (vscal al' (app_op U a fp)))) by (intros i Hi; unfold r'; rewrite (Hr i Hi), (Q i Hi); reflexivity).
    destruct be as [be'|] eqn:Ebe.
    + right. exists (vadd (vscal be' fp) (vsub fr (vscal al' (app_op U a fp)))), (vsub fr (vscal al' (app_op U a fp))). split; [|exact R'].
      intros i Hi. change (p i ⊗ Some be' ⊕ r' i = Some (vadd (vscal be' fp) (vsub fr (vscal al' (app_op U a fp))) i)). rewrite (Hp i Hi), (R' i Hi). cbn. unfold vadd, vscal. do 2 f_equal. ring.
    + left. intros i Hi. cbn. rewrite lift2_none. reflexivity.
  - left. intros i Hi. cbn. rewrite !lift2_none. reflexivity.
Qed.
Lemma tame_steps k v : 0 < n -> tame v -> tame (Nat.iter k body v).
Proof. intros Hn H. induction k as [|k IH]; [exact H|]. apply tame_body; assumption. Qed.
Lemma tame_like v w : like v w -> tame w -> tame v.
Proof.
  intros L [H|[p [r [Hp Hr]]]]; [left|right; exists p, r; split]; intros i Hi; rewrite ?(like_p L Hi), ?(like_r L Hi); auto.
Qed.
Lemma double_steps k v : 0 < n -> tame v -> like (Nat.iter k (double_cg_body exact n m) v) (Nat.iter (2 * k) body v).
Proof.
  intros Hn Ht. induction k as [|k IH]; [apply like_refl|].
  replace (2 * S k) with (S (S (2 * k))) by lia. cbn [Nat.iter nat_rect].
  change (like (double_cg_body exact n m (Nat.iter k (double_cg_body exact n m) v)) (body (body (Nat.iter (2 * k) body v)))).
  eapply like_trans; [apply half_step; [exact Hn|]|do 2 apply like_body; exact IH].
  eapply tame_like; [exact IH|]. apply tame_steps; assumption.
Qed.
Lemma its_body v : its (body v) = its v ++ [v_x (body v)].
Proof. reflexivity. Qed.
Lemma its_length k v : length (its (Nat.iter k body v)) = length (its v) + k.
Proof. induction k as [|k IH]; [cbn; lia|]. change (Nat.iter (S k) body v) with (body (Nat.iter k body v)). rewrite its_body, app_length, IH. cbn. lia. Qed.
Lemma its_prefix k j v : exists l, its (Nat.iter (k + j) body v) = its (Nat.iter k body v) ++ l.
Proof.
  induction j as [|j [l IH]]; [exists []; rewrite Nat.add_0_r, app_nil_r; reflexivity|]. replace (k + S j) with (S (k + j)) by lia.
  change (Nat.iter (S (k + j)) body v) with (body (Nat.iter (k + j) body v)). rewrite its_body, IH, <- app_assoc. eexists. reflexivity.
Qed.
Lemma its_nth k j v : its v = [] -> j < k -> nth_error (its (Nat.iter k body v)) j = Some (v_x (Nat.iter (S j) body v)).
Proof.
  intros Hv Hj. destruct (its_prefix (S j) (k - S j) v) as [l E]. replace (S j + (k - S j)) with k in E by lia. rewrite E.
  assert (L := its_length (S j) v). rewrite Hv in L. cbn [length] in L. rewrite nth_error_app1 by lia.
  change (Nat.iter (S j) body v) with (body (Nat.iter j body v)). rewrite its_body.
  assert (L' := its_length j v). rewrite Hv in L'. cbn [length] in L'. rewrite nth_error_app2 by lia. replace (j - length (its (Nat.iter j body v))) with 0 by lia. reflexivity.
Qed.

(** the textbook iteration *)
Variables fb fx : nat -> R.
Hypothesis Hb : array_is n b fb.
Variable x0 : nat -> option R.
Hypothesis Hx : array_is n x0 fx.
Notation t k := (cg_iter U a fx (residual n a fb fx) k).
Lemma start_real : array_is n (v_r (start exact n m b x0)) (residual n a fb fx).
Proof. intros i Hi. cbn [start v_r]. rewrite (Hb Hi), (matmul_is Hx Hi). reflexivity. Qed.
Lemma start_tame : tame (start exact n m b x0).
Proof. right. exists (residual n a fb fx), (residual n a fb fx). split; exact start_real. Qed.
Record holds_it (v : vars (option R)) (k : nat) : Prop := mk_holds_it { hi_x : array_is n (v_x v) (it_x (t k)); hi_r : array_is n (v_r v) (it_r (t k)); hi_p : array_is n (v_p v) (it_p (t k));
  hi_n : v_r_norm2 v = Some (ip U (it_r (t k)) (it_r (t k))) }.
Lemma start_holds : holds_it (start exact n m b x0) 0.
Proof. constructor; [exact Hx|exact start_real|exact start_real|]. apply dot_is; exact start_real. Qed.
Lemma body_holds v k : holds_it v k -> cg_defined U a fx (residual n a fb fx) k -> holds_it (body v) (S k).
Proof.
  intros [H1 H2 H3 H4] [D1 D2]. assert (Q := matmul_is H3). assert (Dt := dot_is H3 Q).
  assert (Al : adiv exact (v_r_norm2 v) (dot exact n (v_p v) (matmul exact n m (v_p v))) = Some (alpha U a fx (residual n a fb fx) k)).
  { rewrite H4, Dt. cbn [adiv exact Rdiv_opt]. destruct (Req_EM_T _ 0); [contradiction|reflexivity]. }
  unfold cg_body. rewrite Al.
  assert (R' : array_is n (fun i => asub exact (v_r v i) (amul exact (Some (alpha U a fx (residual n a fb fx) k)) (matmul exact n m (v_p v) i))) (it_r (t (S k)))).
  { intros i Hi. rewrite (H2 i Hi), (Q i Hi). reflexivity. }
  assert (N := dot_is R' R'). constructor; cbn [v_x v_r v_p v_r_norm2].
  - intros i Hi. rewrite (H1 i Hi), (H3 i Hi). reflexivity.
  - exact R'.
  - intros i Hi. rewrite N, H4. assert (E := R' i Hi). cbv beta in E. rewrite E, (H3 i Hi). cbn [adiv exact Rdiv_opt]. destruct (Req_EM_T _ 0); [contradiction|]. cbn [amul aadd exact lift2].
    f_equal. rewrite (p_next U a fx (residual n a fb fx) k). unfold vadd, vscal, beta. rewrite Rplus_comm. f_equal. apply Rmult_comm.
  - exact N.
Qed.
Lemma steps_hold k : (forall j, j < k -> cg_defined U a fx (residual n a fb fx) j) -> holds_it (Nat.iter k body (start exact n m b x0)) k.
Proof. induction k as [|k IH]; intros H; [exact start_holds|]. apply body_holds; [apply IH; intros j Hj; apply H; lia|apply H; lia]. Qed.
(** past convergence *)
Definition lost (v : vars (option R)) : Prop := all_undefined n (v_x v) /\ all_undefined n (v_p v).
Lemma body_lost v : 0 < n -> (lost v \/ exists p, array_is n (v_p v) p /\ ip U p (app_op U a p) = 0%R) -> lost (body v).
Proof.
  intros Hn H. assert (Al : adiv exact (v_r_norm2 v) (dot exact n (v_p v) (matmul exact n m (v_p v))) = None).
  { destruct H as [[_ H]|[p [Hp E]]].
    - rewrite (dot_none _ Hn (matmul_none Hn H)). destruct (v_r_norm2 v); reflexivity.
    - rewrite (dot_is Hp (matmul_is Hp)), E. destruct (v_r_norm2 v); [|reflexivity]. cbn. destruct (Req_EM_T 0 0); [reflexivity|congruence]. }
  unfold cg_body. rewrite Al. split; intros i Hi; cbn; rewrite ?lift2_none; reflexivity.
Qed.
End Facts.

Lemma forall2_len A B (P : A -> B -> Prop) l l' : Forall2 P l l' -> length l = length l'.
Proof. induction 1; cbn; congruence. Qed.

(** ** C87 *)
(** double_cg returns cg's iterates (undefined entries included), for every square matrix; for odd n it returns one more. *)
Theorem C87_double_cg_agrees : forall n m a b fb x fx,
  real_matrix n m a -> array_is n b fb -> array_is n x fx ->
  let one := cg exact n m b x in
  let two := double_cg exact n m b x in
  length (fst one) = n /\ length (fst two) = (if Nat.even n then n else S n) /\
  (forall k, k < n -> exists u v, nth_error (fst one) k = Some u /\ nth_error (fst two) k = Some v /\ same_array n u v) /\
  (Nat.even n = true -> same_array n (snd one) (snd two)).
Proof.
  intros n m a b fb x fx Hm Hb Hx one two.
  assert (L1 : length (fst one) = n) by (cbn [one cg fst]; rewrite its_length; reflexivity).
  destruct (Nat.eq_dec n 0) as [->|Hn0]; [cbn; repeat split; try (intros; lia); intros _ i Hi; lia|].
  assert (Hn : 0 < n) by lia. assert (Ht := start_tame Hm Hb Hx).
  assert (Hd := double_steps Hm ((n + 1) / 2) Hn Ht).
  assert (E2 : 2 * ((n + 1) / 2) = if Nat.even n then n else S n).
  { destruct (Nat.even n) eqn:Ev.
    - apply Nat.even_spec in Ev. destruct Ev as [h ->]. replace (2 * h + 1) with (1 + h * 2) by lia. rewrite Nat.div_add by lia. cbn. lia.
    - assert (O : Nat.Odd n) by (apply Nat.odd_spec; unfold Nat.odd; rewrite Ev; reflexivity). destruct O as [h ->]. replace (2 * h + 1 + 1) with ((h + 1) * 2) by lia. rewrite Nat.div_mul by lia. lia. }
  rewrite E2 in Hd. assert (Hlen := forall2_len (like_its Hd)). rewrite its_length in Hlen. cbn [start its length] in Hlen.
  split; [exact L1|]. split; [exact Hlen|]. split.
  - intros k Hk. assert (N1 := @its_nth n m n k (start exact n m b x) eq_refl Hk).
    assert (N2 := @its_nth n m (if Nat.even n then n else S n) k (start exact n m b x) eq_refl ltac:(destruct (Nat.even n); lia)).
    cbn [one two cg double_cg fst]. exists (v_x (Nat.iter (S k) (cg_body exact n m) (start exact n m b x))).
    destruct (nth_error (its (Nat.iter ((n + 1) / 2) (double_cg_body exact n m) (start exact n m b x))) k) as [v|] eqn:E.
    + exists v. split; [exact N1|]. split; [reflexivity|]. assert (F := like_its Hd). clear - F N2 E. revert F N2 E.
      generalize (its (Nat.iter ((n + 1) / 2) (double_cg_body exact n m) (start exact n m b x))) (its (Nat.iter (if Nat.even n then n else S n) (cg_body exact n m) (start exact n m b x))) (v_x (Nat.iter (S k) (cg_body exact n m) (start exact n m b x))).
      intros l l' u F. revert k. induction F as [|p q l l' H _ IH]; intros [|k] N E; cbn in N, E; try discriminate.
      * injection N as ->. injection E as ->. intros i Hi. symmetry. apply H. exact Hi.
      * exact (IH k N E).
    + exfalso. apply nth_error_None in E. rewrite Hlen in E. destruct (Nat.even n); lia.
  - intros Ev. rewrite Ev in Hd. intros i Hi. cbn [one two cg double_cg snd]. symmetry. apply (like_x Hd Hi).
Qed.

(** The k-th iterate of cg is the textbook iteration (CGSpec) started from the residual b - A x, as long as that is defined. *)
Theorem C87_cg_is_textbook : forall n m a b fb x fx k,
  real_matrix n m a -> array_is n b fb -> array_is n x fx -> k < n ->
  (forall j, j <= k -> cg_defined (seq 0 n) a fx (residual n a fb fx) j) ->
  exists u, nth_error (fst (cg exact n m b x)) k = Some u /\ array_is n u (it_x (cg_iter (seq 0 n) a fx (residual n a fb fx) (S k))).
Proof.
  intros n m a b fb x fx k Hm Hb Hx Hk Hd. eexists. split; [apply its_nth; [reflexivity|exact Hk]|].
  apply (hi_x (@steps_hold n m a Hm b fb fx Hb x Hx (S k) ltac:(intros j Hj; apply Hd; lia))).
Qed.

(** Symmetric positive definite systems: there is a number k of steps, at most n, such that the iterates 1, ..., k are
    real, the k-th one solves the system (if k = 0, the initial x does), and all later ones, in particular the extra
    iterate of double_cg for odd n, have no defined entry. *)
Theorem C87_converges_then_undefined : forall n m a b fb x fx,
  real_matrix n m a -> array_is n b fb -> array_is n x fx -> symmetric (seq 0 n) a -> positive_definite (seq 0 n) a -> 0 < n ->
  exists (k : nat) (y : nat -> nat -> R), k <= n /\ (forall i, i < n -> y 0 i = fx i) /\
    (forall i, i < n -> app_op (seq 0 n) a (y k) i = fb i) /\
    (forall j, j < k -> exists i, i < n /\ app_op (seq 0 n) a (y j) i <> fb i) /\
    forall its, its = fst (cg exact n m b x) \/ its = fst (double_cg exact n m b x) ->
      forall j u, nth_error its j = Some u -> if j <? k then array_is n u (y (S j)) else all_undefined n u.
Proof.
  intros n m a b fb x fx Hm Hb Hx Hs Hp Hn.
  destruct (@terminates _ (seq 0 n) a fx (residual n a fb fx) Hs Hp Nat.eq_dec (seq_NoDup n 0)) as [k [K1 [K2 K3]]]. rewrite seq_length in K1.
  set (t j := cg_iter (seq 0 n) a fx (residual n a fb fx) j) in *.
  assert (Hdef := @defined_while_nonzero _ (seq 0 n) a fx (residual n a fb fx) Hs Hp k K3).
  assert (Res : forall j i, it_r (t j) i = (fb i - app_op (seq 0 n) a (it_x (t j)) i)%R).
  { intros j i. assert (E := residual_identity (seq 0 n) a fx (residual n a fb fx) j i). fold (t j) in E. rewrite E, app_sub. unfold residual. ring. }
  exists k, (fun j => it_x (t j)). split; [exact K1|]. split; [reflexivity|]. split; [|split].
  - intros i Hi. assert (Z := ip_zero _ _ K2 i). rewrite Res in Z. assert (Z' := Z ltac:(apply in_seq; lia)). lra.
  - intros j Hj. assert (E := K3 j Hj). destruct (classic (exists i, i < n /\ app_op (seq 0 n) a (it_x (t j)) i <> fb i)) as [C|C]; [exact C|].
    exfalso. apply E. apply vzero_ip. intros i Hi. rewrite Res. apply in_seq in Hi. destruct (Req_EM_T (app_op (seq 0 n) a (it_x (t j)) i) (fb i)) as [E'|E']; [lra|]. exfalso. apply C. exists i. split; [lia|exact E'].
  - assert (Def : forall j, j <= k -> holds_it n a fb fx (Nat.iter j (cg_body exact n m) (start exact n m b x)) j).
    { intros j Hj. apply steps_hold; try assumption. intros i Hi. apply Hdef. lia. }
    assert (Lost : forall j, lost n (Nat.iter (S k + j) (cg_body exact n m) (start exact n m b x))).
    { induction j as [|j IH].
      - rewrite Nat.add_0_r. apply (body_lost Hm Hn). right. exists (it_p (t k)). split; [exact (hi_p (Def k (le_n k)))|].
        assert (Zr := ip_zero _ _ K2). apply vzero_ip. intros i Hi. destruct k as [|k']; [exact (Zr i Hi)|].
        unfold t. rewrite p_next. unfold vadd, vscal, beta. fold (t (S k')). rewrite (Zr i Hi), K2. unfold Rdiv. ring.
      - replace (S k + S j) with (S (S k + j)) by lia. apply (body_lost Hm Hn). left. exact IH. }
    assert (One : forall N j u, nth_error (its (Nat.iter N (cg_body exact n m) (start exact n m b x))) j = Some u -> if j <? k then array_is n u (it_x (t (S j))) else all_undefined n u).
    { intros N j u Hu. assert (Hj : j < N). { assert (L := its_length n m N (start exact n m b x)). cbn [start its length] in L. assert (Hj : j < length (its (Nat.iter N (cg_body exact n m) (start exact n m b x)))) by (apply nth_error_Some; rewrite Hu; discriminate). lia. }
      rewrite its_nth in Hu by (reflexivity || exact Hj). injection Hu as <-. destruct (Nat.ltb_spec j k) as [H|H].
      - exact (hi_x (Def (S j) H)).
      - assert (Lx := proj1 (Lost (j - k))). replace (S k + (j - k)) with (S j) in Lx by lia. exact Lx. }
    intros l [->| ->] j u Hu; [exact (One n j u Hu)|].
    assert (Hd := double_steps Hm ((n + 1) / 2) Hn (start_tame Hm Hb Hx)). cbn [double_cg fst] in Hu.
    assert (G : exists u', nth_error (its (Nat.iter (2 * ((n + 1) / 2)) (cg_body exact n m) (start exact n m b x))) j = Some u' /\ same_array n u u').
    { assert (F := like_its Hd). clear - F Hu. revert F Hu.
      generalize (its (Nat.iter ((n + 1) / 2) (double_cg_body exact n m) (start exact n m b x))) (its (Nat.iter (2 * ((n + 1) / 2)) (cg_body exact n m) (start exact n m b x))).
      intros l l' F. revert j. induction F as [|p q l l' H _ IH]; intros [|j] E; cbn in E |- *; try discriminate; [injection E as ->; eauto|exact (IH j E)]. }
    destruct G as [u' [G1 G2]]. assert (O := One _ j u' G1). destruct (j <? k); intros i Hi; rewrite (G2 i Hi); exact (O i Hi).
Qed.

(** cg and the library's CGSolver: number the unknowns of a solver's system 0 .. n-1 in any way and give cg the matrix and
    the vectors in that numbering.  Then the k-th iterate of cg for right-hand side b and initial x0 is the solution vector
    of CGSolver after k steps if the solver's right-hand side vectors hold b - A x0 (which is b if x0 = 0: the two treat
    a non-zero initial guess differently, see C37). *)
Section Relabel.
Variable P : Type.
Variable U : list P.
Variable n : nat.
Variable e : nat -> P.
Hypothesis He : Permutation (map e (seq 0 n)) U.
Lemma ip_relabel f g f' g' : (forall i, f' i = f (e i)) -> (forall i, g' i = g (e i)) -> ip (seq 0 n) f' g' = ip U f g.
Proof. intros Hf Hg. unfold ip. rewrite <- (Rsum_perm _ He), Rsum_map. apply Rsum_ext. intros i _. rewrite Hf, Hg. reflexivity. Qed.
Lemma app_relabel a x x' : (forall i, x' i = x (e i)) -> forall i, app_op (seq 0 n) (fun i j => a (e i) (e j)) x' i = app_op U a x (e i).
Proof. intros Hx i. unfold app_op. rewrite <- (Rsum_perm _ He), Rsum_map. apply Rsum_ext. intros j _. rewrite Hx. reflexivity. Qed.
Lemma cg_relabel a x b x' b' : (forall i, x' i = x (e i)) -> (forall i, b' i = b (e i)) -> forall k,
  let t := cg_iter (seq 0 n) (fun i j => a (e i) (e j)) x' b' k in let T := cg_iter U a x b k in
  (forall i, it_x t i = it_x T (e i)) /\ (forall i, it_r t i = it_r T (e i)) /\ (forall i, it_p t i = it_p T (e i)).
Proof.
  intros Hx Hb. induction k as [|k IH]; [repeat split; assumption|]. cbn zeta in *. destruct IH as (IX & IR & IP).
  set (t := cg_iter (seq 0 n) (fun i j => a (e i) (e j)) x' b' k) in *. set (T := cg_iter U a x b k) in *.
  cbn [cg_iter]. fold t T. unfold cg_next. cbn [it_x it_r it_p].
  assert (QA := app_relabel a _ _ IP). rewrite (ip_relabel _ _ _ _ IR IR), (ip_relabel _ _ _ _ IP QA).
  set (al := (ip U (it_r T) (it_r T) / ip U (it_p T) (app_op U a (it_p T)))%R).
  assert (R' : forall i, (it_r t i - al * app_op (seq 0 n) (fun i j => a (e i) (e j)) (it_p t) i)%R = (it_r T (e i) - al * app_op U a (it_p T) (e i))%R) by (intros i; rewrite IR, QA; reflexivity).
  rewrite (ip_relabel (fun u => it_r T u - al * app_op U a (it_p T) u)%R (fun u => it_r T u - al * app_op U a (it_p T) u)%R _ _ R' R').
  split; [intros i; rewrite IX, IP; reflexivity|]. split; [exact R'|]. intros i. rewrite R', IP. reflexivity.
Qed.
End Relabel.
Theorem C87_cg_matches_CGSolver : forall lg red (cs : list (setup_call (option R))) st pl0 s (x0 b : unknown -> R) n m bb fb xx (e : nat -> unknown) k,
  legion_ok lg -> legal_reduction exact red -> set_up lg cs st pl0 -> real_entries cs -> 0 < length (sols_of cs) ->
  Permutation (map e (seq 0 n)) (unknowns lg cs) ->
  real_matrix n m (fun i j => operator cs (e i) (e j)) -> array_is n bb fb -> array_is n xx (fun i => x0 (e i)) ->
  vectors_hold lg s (sols_of cs) x0 -> vectors_hold lg s (rhss_of cs) b ->
  (forall i, b (e i) = fb i - apply_op (unknowns lg cs) (operator cs) x0 (e i))%R ->
  k < n -> (forall j, j <= k -> cg_defined (unknowns lg cs) (operator cs) x0 b j) ->
  accepted (cg_run exact lg red pl0 (S k)) st /\
  exists y : unknown -> R,
    (forall c st' s', ends (cg_run exact lg red pl0 (S k)) st s c st' s' -> vectors_hold lg s' (sols_of cs) y) /\
    exists u, nth_error (fst (cg exact n m bb xx)) k = Some u /\ array_is n u (fun i => y (e i)).
Proof.
  intros lg red cs st pl0 s x0 b n m bb fb xx e k Hlg Hred Hs Hre Hn He Hm Hbb Hxx Hx Hb Hbe Hk Hd.
  set (us := unknowns lg cs) in *. set (a := operator cs) in *.
  destruct (@C36_cg_is_textbook_cg lg red cs st pl0 s x0 b (S k) Hlg Hred Hs Hre Hn Hx Hb) as [G1 G2]; [intros j Hj; apply Hd; lia|].
  split; [exact G1|]. exists (it_x (cg_iter us a x0 b (S k))). split; [intros c st' s' E; exact (proj1 (G2 c st' s' E))|].
  assert (Hres : forall i, residual n (fun i j => a (e i) (e j)) fb (fun i => x0 (e i)) i = b (e i)).
  { intros i. unfold residual. rewrite (@app_relabel _ us n e He a x0 _ (fun i => eq_refl)). symmetry. apply Hbe. }
  assert (Rl := fun j => @cg_relabel _ us n e He a x0 b (fun i => x0 (e i)) (residual n (fun i j => a (e i) (e j)) fb (fun i => x0 (e i))) (fun i => eq_refl) Hres j).
  destruct (@C87_cg_is_textbook n m (fun i j => a (e i) (e j)) bb fb xx (fun i => x0 (e i)) k Hm Hbb Hxx Hk) as [u [E1 E2]].
  - intros j Hj. destruct (Hd j Hj) as [D1 D2]. destruct (Rl j) as (RX & RR & RP). cbn zeta in *. split.
    + rewrite (@ip_relabel _ us n e He _ _ _ _ RP (@app_relabel _ us n e He a _ _ RP)). exact D1.
    + rewrite (@ip_relabel _ us n e He _ _ _ _ RR RR). exact D2.
  - exists u. split; [exact E1|]. intros i Hi. rewrite (E2 i Hi). f_equal. apply (Rl (S k)).
Qed.

(** ** The hypotheses are met: the 3 x 3 Laplacian matrix (odd size: double_cg returns four iterates, the last undefined);
    and any list of unknowns can be numbered. *)
Definition lap3 (i j : nat) : R := if i =? j then 2%R else if (i =? S j) || (j =? S i) then (-1)%R else 0%R.
Lemma lap3_pd : positive_definite (seq 0 3) lap3.
Proof.
  intros x Hx. unfold ip, app_op. cbn [seq]. rewrite !Rsum_cons, !Rsum_nil. unfold lap3. cbn [Nat.eqb orb].
  assert (E : ~ (x 0%nat = 0 /\ x 1%nat = 0 /\ x 2%nat = 0)%R).
  { intros (E0 & E1 & E2). apply Hx. intros u Hu. apply in_seq in Hu. assert (u = 0 \/ u = 1 \/ u = 2) as [->|[->| ->]] by lia; assumption. }
  revert E. generalize (x 0%nat) (x 1%nat) (x 2%nat). intros u v w E.
  match goal with |- (0 < ?t)%R => replace t with (u * u + (u - v) * (u - v) + (v - w) * (v - w) + w * w)%R by ring end.
  assert (Hu := Rle_0_sqr u). assert (Huv := Rle_0_sqr (u - v)). assert (Hvw := Rle_0_sqr (v - w)). assert (Hw := Rle_0_sqr w). unfold Rsqr in *.
  destruct (Rtotal_order 0 (u * u + (u - v) * (u - v) + (v - w) * (v - w) + w * w)) as [H|[H|H]]; [exact H| |lra].
  exfalso. apply E. assert (u * u = 0)%R by lra. assert ((u - v) * (u - v) = 0)%R by lra. assert (w * w = 0)%R by lra.
  assert (Z : forall z, (z * z = 0 -> z = 0)%R) by (intros z Hz; destruct (Rmult_integral _ _ Hz); assumption).
  assert (u = 0)%R by auto. assert (u - v = 0)%R by auto. assert (w = 0)%R by auto. repeat split; lra.
Qed.
Example C87_example : let m := fun i j => Some (lap3 i j) in let b := fun i => Some (INR i) in let x := fun _ : nat => Some 1%R in
  real_matrix 3 m lap3 /\ array_is 3 b INR /\ array_is 3 x (fun _ => 1%R) /\ symmetric (seq 0 3) lap3 /\ positive_definite (seq 0 3) lap3 /\
  (exists u, nth_error (fst (double_cg exact 3 m b x)) 3 = Some u /\ all_undefined 3 u) /\
  forall U : list unknown, exists e, Permutation (map e (seq 0 (length U))) U.
Proof.
  cbn zeta. split; [intros i _ j _; reflexivity|]. split; [intros i _; reflexivity|]. split; [intros i _; reflexivity|].
  assert (S : symmetric (seq 0 3) lap3) by (intros u v _ _; unfold lap3; rewrite (Nat.eqb_sym u v), (orb_comm (u =? S v)); reflexivity).
  split; [exact S|]. split; [exact lap3_pd|]. split.
  - destruct (@C87_converges_then_undefined 3 (fun i j => Some (lap3 i j)) lap3 (fun i => Some (INR i)) INR (fun _ => Some 1%R) (fun _ => 1%R)) as (k & y & K & _ & _ & _ & H);
      try (intros i _; reflexivity); try (intros i _ j _; reflexivity); [exact S|exact lap3_pd|lia|].
    destruct (nth_error (fst (double_cg exact 3 (fun i j => Some (lap3 i j)) (fun i => Some (INR i)) (fun _ => Some 1%R))) 3) as [u|] eqn:E.
    + exists u. split; [reflexivity|]. assert (G := H _ (or_intror eq_refl) 3 u E). destruct (Nat.ltb_spec 3 k); [lia|exact G].
    + exfalso. apply nth_error_None in E. cbn in E. lia.
  - intros U. exists (fun i => nth i U (0, [])). replace (map (fun i => nth i U (0, [])) (seq 0 (length U))) with U; [reflexivity|].
    induction U as [|u U IH]; [reflexivity|]. cbn [length seq map nth]. rewrite <- seq_shift, map_map. f_equal. exact IH.
Qed.
