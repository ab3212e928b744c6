(** PropsOwnership: C08 and C19 (ownership of Legion objects). *)
Require Import List Arith Bool Lia.
From Verif Require Import Ownership OwnershipSpec OwnershipFacts OwnershipPlanner OwnershipInv OwnershipKinds.
Import ListNotations.
Set Implicit Arguments.

(** ** Reachable states *)

Lemma reaches_app c0 h c h' c' : reaches c0 h c -> reaches c h' c' -> reaches c0 (h ++ h') c'.
Proof.
  revert c0. induction h as [|a h IH]; intros c0 [L R] [L' R'].
  - cbn in R. injection R as ->. split; auto.
  - cbn in *. destruct L as [L1 L2]. destruct (step c0 a) as [c1| |] eqn:e; try discriminate.
    destruct (IH c1 (conj (L2 _ eq_refl) R) (conj L' R')) as [A B].
    split; cbn; [|rewrite e; exact B]. split; auto. intros d Hd. congruence.
Qed.

Record ok (c : client) : Prop := { ok_inv : inv c; ok_par : parents_ok (c_rt c); ok_lt : forall o, alive (c_rt c) o -> o < l_next (c_rt c) }.
Lemma ok_init : ok client_init.
Proof.
  split; [apply inv_init| |].
  - intros p q k H. cbn in H. lia.
  - intros o H. exfalso. apply H. reflexivity.
Qed.
Lemma ok_step c a c' : ok c -> legal c a -> step c a = COk c' -> ok c' /\ kext (c_rt c) (c_rt c').
Proof.
  intros [I P T] L e. pose proof (step_good a I L) as G. rewrite e in G.
  destruct (step_kx _ _ e) as [K H]. destruct (H T P). split; [split; auto|auto].
Qed.
Lemma ok_reaches h : forall c0 c, ok c0 -> reaches c0 h c -> ok c /\ kext (c_rt c0) (c_rt c).
Proof.
  induction h as [|a h IH]; intros c0 c O [L R]; cbn in *.
  - injection R as ->. auto using kext_refl.
  - destruct L as [L1 L2]. destruct (step c0 a) as [c1| |] eqn:e; try discriminate.
    destruct (ok_step _ O L1 e) as [O1 K1]. destruct (IH c1 c O1) as [O2 K2]; [split; auto|].
    split; [auto|]. eapply kext_trans; eauto.
Qed.
Lemma ok_start h c : reaches client_init h c -> ok c.
Proof. intros R. apply (ok_reaches ok_init R). Qed.

Lemma ok_owned c o : ok c -> 0 < owners c o -> o < l_next (c_rt c).
Proof.
  intros [I _ _] H. destruct (i_lost I) as (LP & LN & L1 & _ & _ & W). unfold owners in H.
  rewrite (L1 o) in H. cnt_simp.
  assert (In o (c_user c ++ LP) \/ In o (env_refs (c_env c) ++ LN)) as [Z|Z] by (rewrite !cnt_In; cnt_simp; lia).
  - apply (wf_U W _ Z).
  - apply (wf_lt W), (wf_E W), Z.
Qed.

Lemma ok_refs c o : ok c -> l_refs (c_rt c) o = expected_refs c o.
Proof.
  intros O. destruct O as [I P T] eqn:EO. destruct (i_lost I) as (LP & LN & L1 & _ & _ & W).
  assert (CE : forall x, owners c x = cnt (c_user c ++ LP) x + cnt (env_refs (c_env c) ++ LN) x).
  { intros x. unfold owners. rewrite (L1 x). cnt_simp. lia. }
  assert (AL : forall x, alive (c_rt c) x -> l_refs (c_rt c) x = owners c x) by (intros x Hx; rewrite CE; apply (wf_cnt W _ Hx)).
  assert (DEAD : forall x, (forall q k, l_kind (c_rt c) x <> OPart q k) -> 0 < owners c x -> alive (c_rt c) x).
  { intros x Hk H0. rewrite CE in H0.
    assert (In x (c_user c ++ LP) \/ In x (env_refs (c_env c) ++ LN)) as [Z|Z] by (rewrite !cnt_In; lia).
    - destruct (wf_stale W _ Z) as [A|(q & k & B & _)]; [auto|]. exfalso. eapply Hk; eauto.
    - apply (wf_E W), Z. }
  assert (NP : (forall q k, l_kind (c_rt c) o <> OPart q k) -> l_refs (c_rt c) o = owners c o).
  { intros Hk. destruct (Nat.eq_dec (l_refs (c_rt c) o) 0) as [z|z]; [|auto].
    destruct (Nat.eq_dec (owners c o) 0) as [z'|z']; [congruence|]. destruct (DEAD o); auto; lia. }
  unfold expected_refs. destruct (l_kind (c_rt c) o) as [| |i f|q k] eqn:e; try (apply NP; congruence).
  destruct (Nat.eq_dec (l_refs (c_rt c) o) 0) as [z|z].
  - destruct (Nat.eqb_spec (owners c q) 0) as [z'|z']; [auto|].
    destruct (Nat.eq_dec (owners c o) 0) as [z2|z2]; [congruence|]. exfalso.
    assert (o < l_next (c_rt c)) as lt by (apply ok_owned; [exact O|lia]).
    destruct (P _ _ _ lt e) as [lq kq].
    assert (Aq : alive (c_rt c) q) by (apply DEAD; [congruence|lia]).
    rewrite CE in z2.
    assert (In o (c_user c ++ LP) \/ In o (env_refs (c_env c) ++ LN)) as [Z|Z] by (rewrite !cnt_In; lia).
    + destruct (wf_stale W _ Z) as [A|(q' & k' & B & _ & C)]; [contradiction|]. rewrite e in B. injection B as <- <-. auto.
    + apply (wf_E W) in Z. contradiction.
  - destruct (wf_par W z e) as [Aq Kq]. rewrite <- (AL q Aq).
    destruct (Nat.eqb_spec (l_refs (c_rt c) q) 0) as [z'|z']; [contradiction|]. auto.
Qed.

Lemma refs_same c c' : ok c -> ok c' -> kext (c_rt c) (c_rt c') ->
  (forall x, x < l_next (c_rt c) -> owners c' x = owners c x) ->
  forall o, o < l_next (c_rt c) -> l_refs (c_rt c') o = l_refs (c_rt c) o.
Proof.
  intros O O' [_ K] H o Ho. rewrite !ok_refs by auto. unfold expected_refs. rewrite (K o Ho), (H o Ho).
  destruct (l_kind (c_rt c) o) as [| |i f|q k] eqn:e; auto.
  destruct (ok_par O Ho e) as [Hq _]. rewrite (H q Hq). reflexivity.
Qed.

(** ** C08 *)

(** A correct client never makes the library issue an illegal runtime call. *)
Theorem C08_never_illegal : forall h, legal_history client_init h -> run_history client_init h <> CIllegal.
Proof.
  intros h L e. pose proof (history_good h inv_init L) as G. rewrite e in G. exact G.
Qed.

(** The runtime's count of every object is exactly the number of references held. *)
Theorem C08_refcount_exact : forall h c, reaches client_init h c ->
  forall o, l_refs (c_rt c) o = expected_refs c o.
Proof. intros h c R o. apply ok_refs. eapply ok_start; eauto. Qed.

(** While a vector handle exists all five of its members are alive and have the right kinds. *)
Theorem C08_members_alive : forall h c, reaches client_init h c ->
  forall n v, In (n, CVec v) (c_env c) ->
  live_region (c_rt c) (v_region v) /\ rg_is (v_region v) = v_space v /\ rg_fs (v_region v) = v_fields v /\
  alive (c_rt c) (v_part v) /\ l_kind (c_rt c) (v_part v) = OPart (v_space v) (v_color v) /\
  live_space (c_rt c) (v_color v).
Proof.
  intros h c R n v H. destruct (ok_start R) as [I _ _]. pose proof (i_env I _ _ H) as O. cbn in O.
  destruct (i_lost I) as (LP & LN & _ & _ & _ & W).
  assert (A : forall x, In x (vec_refs v) -> alive (c_rt c) x).
  { intros x Hx. apply (wf_E W), in_app_iff. left. apply in_flat_map. exists (n, CVec v). auto. }
  assert (A1 : alive (c_rt c) (v_space v)) by (apply A; cbn; auto).
  assert (A2 : alive (c_rt c) (v_fields v)) by (apply A; cbn; auto).
  assert (A3 : alive (c_rt c) (rg_id (v_region v))) by (apply A; cbn; auto).
  assert (A4 : alive (c_rt c) (v_color v)) by (apply A; cbn; auto).
  assert (A5 : alive (c_rt c) (v_part v)) by (apply A; cbn; auto 6).
  destruct O as (K1 & K2 & K3 & K4 & K5 & K6 & K7). unfold live_region, live_space. rewrite K4, K5. auto 12.
Qed.

(** ... and when nobody refers to an object any more it has been released. *)
Theorem C08_released : forall h c, reaches client_init h c ->
  forall o, ~ In o (c_user c) -> ~ In o (env_refs (c_env c)) -> ~ In o (c_lost c) -> ~ alive (c_rt c) o.
Proof.
  intros h c R o A B C H. unfold alive in H. rewrite (C08_refcount_exact R) in H. apply H.
  rewrite cnt_In in *. unfold expected_refs, owners.
  assert (cnt (c_user c) o + cnt (env_refs (c_env c)) o + cnt (c_lost c) o = 0) as -> by lia.
  destruct (l_kind (c_rt c) o); auto. destruct (_ =? 0); auto.
Qed.

(** ** C19 *)

(** If, between two moments, the references held have not changed, neither has any count. *)
Theorem C19_counts_restored : forall h c h' c',
  reaches client_init h c -> reaches c h' c' ->
  (forall o, cnt (c_user c') o = cnt (c_user c) o) ->
  (forall o, cnt (env_refs (c_env c')) o = cnt (env_refs (c_env c)) o) ->
  (forall o, cnt (c_lost c') o = cnt (c_lost c) o) ->
  forall o, l_refs (c_rt c') o = l_refs (c_rt c) o.
Proof.
  intros h c h' c' R R' H1 H2 H3 o. pose proof (ok_start R) as O.
  destruct (ok_reaches O R') as [O' K].
  assert (OW : forall x, owners c' x = owners c x) by (intros x; unfold owners; rewrite H1, H2, H3; reflexivity).
  destruct (Nat.lt_ge_cases o (l_next (c_rt c))) as [lt|ge]; [apply refs_same; auto|].
  rewrite !ok_refs by auto. unfold expected_refs. rewrite OW.
  destruct (Nat.eq_dec (owners c o) 0) as [z|z].
  - rewrite z. destruct (l_kind (c_rt c') o), (l_kind (c_rt c) o); repeat destruct (_ =? 0); auto.
  - assert (o < l_next (c_rt c)) by (apply ok_owned; auto; lia). lia.
Qed.

Lemma step_lost c a c' : step c a = COk c' ->
  (forall o, cnt (c_lost c) o <= cnt (c_lost c') o) /\ (leaky a = false -> c_lost c' = c_lost c).
Proof.
  assert (R : forall A (m : rt A) k, (forall x s, (forall o, cnt (c_lost c) o <= cnt (c_lost (k x s)) o) /\
     (leaky a = false -> c_lost (k x s) = c_lost c)) -> run m c k = COk c' ->
     (forall o, cnt (c_lost c) o <= cnt (c_lost c') o) /\ (leaky a = false -> c_lost c' = c_lost c)).
  { intros A m k Hk H. unfold run in H. destruct (m (c_rt c)) as [x s'| |] eqn:e; try discriminate.
    injection H as <-. apply Hk. }
  assert (Z : COk c = COk c' -> (forall o, cnt (c_lost c) o <= cnt (c_lost c') o) /\ (leaky a = false -> c_lost c' = c_lost c))
    by (intros H; injection H as <-; auto).
  destruct a; cbn [step];
    repeat match goal with
      | |- context [match lookup ?n ?e with _ => _ end] => destruct (lookup n e) as [[?|?|?]|]
      end; auto;
  try (apply R; intros; cbn [lose give_user take_user new_obj set_obj del_obj c_lost leaky];
       split; [intros; cnt_simp; lia|first [reflexivity|discriminate]]).
  intros H. injection H as <-. cbn. auto.
Qed.
Lemma reaches_lost h : forall c c', run_history c h = COk c' ->
  (forall o, cnt (c_lost c) o <= cnt (c_lost c') o) /\ (forallb (fun a => negb (leaky a)) h = true -> c_lost c' = c_lost c).
Proof.
  induction h as [|a h IH]; cbn [run_history forallb]; intros c c' H; [injection H as <-; auto|].
  destruct (step c a) as [c1| |] eqn:e; try discriminate.
  destruct (step_lost _ _ e) as [A B]. destruct (IH _ _ H) as [C D]. split.
  - intros o. specialize (A o). specialize (C o). lia.
  - intros Hb. apply andb_true_iff in Hb. destruct Hb as [Hb1 Hb2]. rewrite D by auto. apply B.
    apply negb_true_iff, Hb1.
Qed.

(** Once a correct client that avoids the leaky functions has destroyed its objects and released its
    own references, every Legion object that was ever created has been released. *)
Theorem C19_all_released : forall h c, reaches client_init h c ->
  (forall a, In a h -> leaky a = false) ->
  c_env c = [] -> c_user c = [] -> forall o, ~ alive (c_rt c) o.
Proof.
  intros h c R NL HE HU o. pose proof (proj2 (reaches_lost h _ (proj2 R))) as HL.
  apply (C08_released R); rewrite ?HE, ?HU; cbn; auto.
  rewrite HL; [cbn; auto|]. apply forallb_forall. intros a Ha. rewrite NL; auto.
Qed.
