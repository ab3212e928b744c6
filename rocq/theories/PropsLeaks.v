(** PropsLeaks: the rest of C19, and C15, C49, C60. *)
Require Import List Arith Bool Lia.
From Verif Require Import Ownership OwnershipSpec OwnershipFacts OwnershipPlanner OwnershipInv OwnershipKinds
  OwnershipDrops PropsOwnership.
Import ListNotations.
Set Implicit Arguments.

Lemma lookup_unset n e x : NoDup (map fst e) -> lookup n e = Some x ->
  (forall m y, In (m, y) (unset n e) <-> In (m, y) e /\ m <> n) /\ ceq (env_refs e) (obj_refs x ++ env_refs (unset n e)).
Proof.
  induction e as [|[k y] e IH]; cbn [lookup unset map fst]; intros ND H; [discriminate|].
  inversion ND as [|? ? NI ND']; subst. destruct (Nat.eqb_spec n k) as [->|ne].
  - injection H as ->. split.
    + intros m y. cbn [In]. split.
      * intros Hm. split; [auto|]. intros ->. apply NI. apply in_map_iff. exists (k, y). auto.
      * intros [[E|Hm] Hne]; [congruence|auto].
    + unfold env_refs. cbn [flat_map snd]. apply ceq_refl.
  - destruct (IH ND' H) as [A B]. split.
    + intros m z. cbn [In]. rewrite A. intuition congruence.
    + intros o. unfold env_refs in *. cbn [flat_map snd]. specialize (B o). cnt_simp. lia.
Qed.

(** ** C19: destruction *)

(** Destroying a C++ object in a correct program succeeds, and lowers the count of every Legion object
    by exactly the number of references that C++ object held (a partition may instead disappear
    together with its parent index space). *)
Theorem C19_destroy_exact : forall h c n x, reaches client_init h c ->
  lookup n (c_env c) = Some x -> legal c (ADelete n) ->
  exists c', step c (ADelete n) = COk c' /\
    c_user c' = c_user c /\ c_lost c' = c_lost c /\
    (forall m y, In (m, y) (c_env c') <-> In (m, y) (c_env c) /\ m <> n) /\
    forall o, (forall q k, l_kind (c_rt c) o = OPart q k -> alive (c_rt c') q) ->
      l_refs (c_rt c) o = cnt (obj_refs x) o + l_refs (c_rt c') o.
Proof.
  intros h c n x R Hn L. pose proof (ok_start R) as O.
  destruct (step c (ADelete n)) as [c'| |] eqn:e.
  - exists c'. split; [auto|]. destruct (ok_step _ O L e) as [O' [_ K]].
    cbn [step] in e. rewrite Hn in e. unfold run in e.
    destruct (dtor x (c_rt c)) as [u s'| |] eqn:D; try discriminate. injection e as <-.
    cbn [del_obj c_user c_lost c_env c_rt] in *.
    destruct (lookup_unset n _ (i_names (ok_inv O)) Hn) as [A B].
    split; [auto|]. split; [auto|]. split; [exact A|]. intros o Hp.
    destruct (Nat.lt_ge_cases o (l_next (c_rt c))) as [lt|ge].
    + assert (OW : forall z, owners c z = cnt (obj_refs x) z + owners (del_obj c n s') z).
      { intros z. unfold owners. cbn [del_obj c_user c_lost c_env]. rewrite (B z). cnt_simp. lia. }
      rewrite (ok_refs o O). change (l_refs s' o) with (l_refs (c_rt (del_obj c n s')) o). rewrite (ok_refs o O').
      unfold expected_refs. cbn [del_obj c_rt]. rewrite (K o lt).
      destruct (l_kind (c_rt c) o) as [| |i f|q k] eqn:ek; auto.
      specialize (Hp q k eq_refl). unfold alive in Hp.
      destruct (ok_par O lt ek) as [lq kq].
      change (l_refs s' q) with (l_refs (c_rt (del_obj c n s')) q) in Hp. rewrite (ok_refs q O') in Hp.
      unfold expected_refs in Hp. cbn [del_obj c_rt] in Hp. rewrite (K q lq), kq in Hp.
      change (Client s' (c_user c) (unset n (c_env c)) (c_lost c) (c_fresh c)) with (del_obj c n s') in *.
      destruct (Nat.eqb_spec (owners (del_obj c n s') q) 0) as [z|z]; [congruence|].
      destruct (Nat.eqb_spec (owners c q) 0) as [z'|z']; [rewrite OW in z'; lia|]. apply OW.
    + assert (Z : l_refs (c_rt c) o = 0).
      { destruct (Nat.eq_dec (l_refs (c_rt c) o) 0); auto. apply (ok_lt O) in n0. lia. }
      assert (ZO : owners c o = 0).
      { destruct (Nat.eq_dec (owners c o) 0); auto. assert (o < l_next (c_rt c)) by (apply ok_owned; auto; lia). lia. }
      pose proof (drops_refs_le _ o (drops_dtor x) D). unfold owners in ZO. rewrite (B o) in ZO. cnt_simp. lia.
  - pose proof (step_good (ADelete n) (ok_inv O) L) as G. rewrite e in G. destruct G.
  - cbn [step] in e. rewrite Hn in e. unfold run in e.
    destruct (dtor x (c_rt c)) eqn:D; try discriminate. destruct (d_noabort (drops_dtor x) _ D).
Qed.

(** Why [legal] asks matrices to outlive planners: if the matrix is the
    only holder of its kernel index space, destroying the matrix first makes the planner's destructor
    issue an illegal call. *)
Theorem C19_matrix_must_outlive_planner : forall h c n m k p, reaches client_init h c ->
  lookup n (c_env c) = Some (CMat m) -> lookup k (c_env c) = Some (CPlan p) -> points_to p n ->
  (forall o, o = rg_is (kernel_region m) -> owners c o = cnt (mat_refs m) o) ->
  run_history c [ADelete n; ADelete k] = CIllegal.
Proof.
  intros h c n m k p R Hn Hk (e & He & En) Hex. pose proof (ok_start R) as O. destruct (ok_inv O) as [IL IE IN IF].
  destruct IL as (LP & LN & _ & _ & _ & W).
  pose proof (IE _ _ (lookup_In _ _ Hk)) as P. cbn in P.
  pose proof (po_mats P) as PM. rewrite Forall_forall in PM. destruct (PM e He) as [(q & cc & Kp & (m' & Hm' & Hq)) _].
  assert (m' = m).
  { rewrite En in Hm'. apply lookup_In in Hn. clear -Hm' Hn IN. induction (c_env c) as [|[a y] l IH]; [destruct Hn|].
    cbn in IN. inversion IN; subst. destruct Hn as [Hn|Hn], Hm' as [Hm'|Hm']; try congruence; auto.
    - injection Hn as -> ->. exfalso. apply H1. apply in_map_iff. exists (n, CMat m'). auto.
    - injection Hm' as -> ->. exfalso. apply H1. apply in_map_iff. exists (n, CMat m). auto. }
  subst m'. cbn [run_history step]. rewrite Hn. unfold run at 1. cbn [dtor].
  pose proof (drops_mat m) as D. destruct (mat_dtor m (c_rt c)) as [u s'| |] eqn:ED; auto; [|destruct (d_noabort D _ ED)].
  cbn [del_obj c_env].
  assert (KN : k <> n) by (intros ->; rewrite Hn in Hk; discriminate).
  assert (LK : lookup k (unset n (c_env c)) = Some (CPlan p)).
  { clear -Hk KN. induction (c_env c) as [|[a y] l IH]; cbn [lookup unset] in *; [discriminate|].
    destruct (Nat.eqb_spec n a) as [->|].
    - destruct (Nat.eqb_spec k a); [congruence|]. exact Hk.
    - cbn [lookup]. destruct (Nat.eqb_spec k a); auto. }
  cbn [step del_obj c_env]. rewrite LK. unfold run. cbn [dtor c_rt del_obj].
  assert (OKM : l_kind (c_rt c) q = OSpace).
  { pose proof (IE _ _ (lookup_In _ _ Hn)) as OM. cbn in OM. rewrite <- Hq.
    destruct m; cbn in *; [apply OM|apply (proj1 OM)]. }
  assert (Z : l_refs s' q = 0).
  { assert (NP : forall a b, l_kind (c_rt c) q <> OPart a b) by (intros a b; congruence).
    pose proof (d_eq D _ q ED NP) as X. rewrite (ok_refs q O) in X. unfold expected_refs in X.
    rewrite OKM in X. rewrite (Hex q (eq_sym Hq)) in X. lia. }
  assert (PA : parents_alive s').
  { eapply (d_par D); eauto. intros a b d. apply (wf_par W). }
  assert (ZP : l_refs s' (pm_kpart e) = 0).
  { destruct (Nat.eq_dec (l_refs s' (pm_kpart e)) 0); auto.
    rewrite <- (d_kind D _ ED) in Kp. destruct (PA (pm_kpart e) q cc n0 Kp) as [A _]. destruct (A Z). }
  rewrite (planner_dtor_dead p e s' He ZP). reflexivity.
Qed.

(** ** C15: the derived-partition helpers *)

Lemma wp_run {A} (m : rt A) s a s' (Q : A -> lstate -> Prop) : wp m s Q -> m s = ROk a s' -> Q a s'.
Proof. unfold wp. intros H e. rewrite e in H. exact H. Qed.

(** What the helpers do: besides the partition [p] they return (held by the caller), they leave one
    partition [k] of the matrix's kernel space that nobody holds; nothing else changes. *)
Definition leaves_partition (c c' : client) (m : mat) (space : nat) (p k : nat) : Prop :=
  c_user c' = p :: c_user c /\ c_lost c' = k :: c_lost c /\ c_env c' = c_env c /\
  p <> k /\ ~ alive (c_rt c) p /\ ~ alive (c_rt c) k /\
  (exists col, l_kind (c_rt c') p = OPart space col /\ l_kind (c_rt c') k = OPart (rg_is (kernel_region m)) col) /\
  l_refs (c_rt c') p = 1 /\ l_refs (c_rt c') k = 1 /\
  forall o, o <> p -> o <> k -> l_refs (c_rt c') o = l_refs (c_rt c) o.

Lemma derived_partition_common c m (s s1 s2 : lstate) space kp p col :
  s = c_rt c -> (forall o, alive s o -> o < l_next s) ->
  adds_part s s1 kp (rg_is (kernel_region m)) -> adds_part s1 s2 p space ->
  l_kind s1 kp = OPart (rg_is (kernel_region m)) col -> l_kind s2 p = OPart space col ->
  leaves_partition c (lose [kp] (give_user c [p] s2)) m space p kp.
Proof.
  intros -> LT (g1 & e1 & N1 & _ & R1 & Q1) (g2 & e2 & N2 & _ & R2 & Q2) K1 K2.
  assert (NE : p <> kp) by lia.
  unfold leaves_partition, lose, give_user; cbn [c_rt c_user c_env c_lost app].
  split; [auto|]. split; [auto|]. split; [auto|]. split; [auto|].
  split. { intros H. apply LT in H. lia. } split. { intros H. apply LT in H. lia. }
  split. { exists col. split; [auto|]. rewrite (proj2 (proj1 g2)); [exact K1|lia]. }
  split; [auto|]. split. { rewrite Q2; auto. } intros o H1 H2. rewrite Q2, Q1; auto.
Qed.

Lemma color_inv p s a s' : rt_color_space p s = ROk a s' -> s' = s /\ exists q, l_kind s p = OPart q a.
Proof.
  unfold rt_color_space, bind, need. destruct (aliveb s p); [|discriminate].
  destruct (l_kind s p) eqn:e; try discriminate. intros H. injection H as <- <-. eauto.
Qed.
Lemma need_inv p s a s' : need p s = ROk a s' -> s' = s.
Proof. unfold need. destruct (aliveb s p); [|discriminate]. congruence. Qed.
Lemma lpart_inv r p s a s' : rt_logical_partition r p s = ROk a s' -> s' = s.
Proof.
  unfold rt_logical_partition, bind, need, ret. destruct (aliveb s (rg_id r)); [|discriminate].
  destruct (aliveb s p); [|discriminate]. congruence.
Qed.
Lemma create_part_inv q k s a s' : rt_create_partition q k s = ROk a s' -> l_kind s' a = OPart q k /\ a = l_next s.
Proof.
  unfold rt_create_partition, bind, need. destruct (aliveb s q); [|discriminate]. destruct (aliveb s k); [|discriminate].
  destruct (l_kind s q); try discriminate. intros H. injection H as <- <-. cbn. rewrite fupd_same. auto.
Qed.
Lemma bind_inv {A B} (m : rt A) (f : A -> rt B) s b s' : bind m f s = ROk b s' -> exists a s1, m s = ROk a s1 /\ f a s1 = ROk b s'.
Proof. unfold bind. destruct (m s) as [a s1| |]; try discriminate. eauto. Qed.
Ltac binv H := let a := fresh "a" in let s := fresh "s" in let e := fresh "e" in apply bind_inv in H; destruct H as (a & s & e & H).

(** The colours of the partitions made by the helpers are those of the argument. *)
Lemma kernel_from_range_col m rp s a s' q k : l_kind s rp = OPart q k -> kernel_from_range m rp s = ROk a s' ->
  l_kind s' a = OPart (rg_is (kernel_region m)) k.
Proof.
  intros K H. destruct m; cbn [kernel_from_range kernel_region] in *; binv H; apply color_inv in e; destruct e as [-> [q' e]];
    assert (a0 = k) by congruence; subst a0; binv H.
  - apply need_inv in e0. subst. apply create_part_inv in H. apply H.
  - apply lpart_inv in e0. subst. apply create_part_inv in H. apply H.
Qed.
Lemma kernel_from_domain_col m rp s a s' q k : l_kind s rp = OPart q k -> kernel_from_domain m rp s = ROk a s' ->
  l_kind s' a = OPart (rg_is (kernel_region m)) k.
Proof.
  intros K H. unfold kernel_from_domain in H. binv H; apply color_inv in e; destruct e as [-> [q' e]];
    assert (a0 = k) by congruence; subst a0; binv H.
  apply need_inv in e0. subst. apply create_part_inv in H. apply H.
Qed.
Lemma domain_from_kernel_col m ds kp s a s' q k : l_kind s kp = OPart q k -> domain_from_kernel m ds kp s = ROk a s' ->
  l_kind s' a = OPart ds k.
Proof.
  intros K H. unfold domain_from_kernel in H. binv H. apply lpart_inv in e. subst. binv H. apply color_inv in e.
  destruct e as [-> [q' e]]. assert (a1 = k) by congruence; subst a1. apply create_part_inv in H. apply H.
Qed.
Lemma range_from_kernel_col m rs kp s a s' q k : l_kind s kp = OPart q k -> range_from_kernel m rs kp s = ROk a s' ->
  l_kind s' a = OPart rs k.
Proof.
  intros K H. destruct m; cbn [range_from_kernel] in H.
  - binv H. apply lpart_inv in e. subst. binv H. apply color_inv in e.
    destruct e as [-> [q' e]]. assert (a1 = k) by congruence; subst a1. apply create_part_inv in H. apply H.
  - binv H. unfold assert_ in e. destruct (Nat.eqb_spec rs (rg_is rowptr)); [|discriminate]. injection e as _ <-.
    binv H. apply color_inv in e. destruct e as [-> [q' e]]. assert (a1 = k) by congruence; subst a1.
    binv H. apply need_inv in e1. subst s0 rs. apply create_part_inv in H. apply H.
Qed.

Lemma mat_alive c n m : ok c -> lookup n (c_env c) = Some (CMat m) ->
  mat_ok (c_rt c) m /\ forall x, In x (mat_refs m) -> alive (c_rt c) x.
Proof.
  intros O H. destruct (ok_inv O) as [(LP & LN & _ & _ & _ & W) IE _ _]. pose proof (IE _ _ (lookup_In _ _ H)) as M. split; [exact M|].
  intros x Hx. apply (wf_E W), in_app_iff. left. apply in_flat_map. exists (n, CMat m). split; [apply lookup_In, H|exact Hx].
Qed.

(** Both helpers, in every correct program: the partition returned is new and held by the caller alone;
    one more partition (of the matrix's kernel space) is left behind held by nobody. *)
Theorem C15_leaves_one_partition : forall h c n m space part c' a,
  reaches client_init h c -> lookup n (c_env c) = Some (CMat m) ->
  a = ADomainFromRange n space part \/ a = ARangeFromDomain n space part ->
  legal c a -> step c a = COk c' ->
  exists p k, leaves_partition c c' m space p k /\
    exists q q' col, l_kind (c_rt c') part = OPart q col /\ l_kind (c_rt c') p = OPart q' col.
Proof.
  intros h c n m space part c' a R Hn Ha L e. pose proof (ok_start R) as O.
  destruct (mat_alive _ O Hn) as [Om Am]. destruct (ok_inv O) as [(LP & LN & _ & _ & _ & W) _ _ _].
  destruct (mat_live m W Am Om) as [LK _].
  set (s := c_rt c) in *. set (U := c_user c ++ LP) in *. set (E := env_refs (c_env c) ++ LN) in *.
  set (KS := rg_is (kernel_region m)).
  assert (LTs : forall o, alive s o -> o < l_next s) by apply (wf_lt W).
  assert (P1 : forall (f : rt nat) (s1 : lstate) kp, live_space s space -> f s = ROk kp s1 ->
     wp f s (fun o s' => adds_part s s' o KS /\ live_partition s' o /\ WF s' U (o :: E)) ->
     adds_part s s1 kp KS /\ live_partition s1 kp /\ WF s1 U (kp :: E) /\ grow s s1 /\ live_space s1 space /\
     alive s1 (rg_id (kernel_region m)) /\ mat_ok s1 m /\ forall x, In x (mat_refs m) -> alive s1 x).
  { intros f s1 kp Ls Hf Hw. destruct (@wp_run _ _ _ _ _ _ Hw Hf) as (A & B & C). split; [exact A|]. split; [exact B|]. split; [exact C|].
    destruct A as (g & _). split; [exact g|]. split.
    { destruct Ls as [a1 a2]. split; [apply (proj2 g), a1|]. rewrite (proj2 (proj1 g)); auto. }
    split; [apply (proj2 g), LK|]. split.
    { eapply mat_ok_kext; [apply g| |exact Om]. intros x Hx. apply LTs, Am, Hx. }
    intros x Hx. apply (proj2 g), Am, Hx. }
  destruct Ha as [->| ->]; cbn [step] in e; rewrite Hn in e; unfold run in e; cbn [legal] in L; destruct L as (_ & Ls & Lp);
    pose proof Lp as (Ap & q & col & Kp & _); pose proof (LTs _ Ap) as ltp; fold s in e.
  - destruct (domain_partition_from_range_partition m space part s) as [[p k] s2| |] eqn:ER; try discriminate.
    injection e as <-. cbn [fst snd]. unfold domain_partition_from_range_partition in ER.
    apply bind_inv in ER. destruct ER as (kp & s1 & E1 & ER). apply bind_inv in ER. destruct ER as (p' & s2' & E2 & ER).
    injection ER as -> -> ->.
    destruct (P1 _ s1 k Ls E1) as (A1 & L1 & W1 & g1 & Ls1 & AK1 & _).
    { eapply kernel_from_range_spec; eauto. }
    assert (S2 : wp (domain_from_kernel m space k) s1 (fun o s' => adds_part s1 s' o space)).
    { eapply domain_from_kernel_spec; eauto. }
    pose proof (@wp_run _ _ _ _ _ _ S2 E2) as A2.
    pose proof (kernel_from_range_col _ _ _ Kp E1) as K1. pose proof (domain_from_kernel_col _ _ _ _ K1 E2) as K2.
    exists p, k. split.
    + eapply derived_partition_common with (s := s); eauto.
    + exists q, space, col. unfold lose, give_user; cbn [c_rt]. split; [|exact K2].
      destruct A2 as (g2 & _). pose proof (proj1 (proj1 g1)). rewrite (proj2 (proj1 g2)) by lia. rewrite (proj2 (proj1 g1)) by lia. exact Kp.
  - destruct (range_partition_from_domain_partition m space part s) as [[p k] s2| |] eqn:ER; try discriminate.
    injection e as <-. cbn [fst snd]. unfold range_partition_from_domain_partition in ER.
    apply bind_inv in ER. destruct ER as (kp & s1 & E1 & ER). apply bind_inv in ER. destruct ER as (p' & s2' & E2 & ER).
    injection ER as -> -> ->.
    destruct (P1 _ s1 k Ls E1) as (A1 & L1 & W1 & g1 & Ls1 & AK1 & OM1 & AM1).
    { eapply kernel_from_domain_spec; eauto. }
    assert (S2 : wp (range_from_kernel m space k) s1 (fun o s' => adds_part s1 s' o space)).
    { eapply range_from_kernel_spec; eauto. }
    pose proof (@wp_run _ _ _ _ _ _ S2 E2) as A2.
    pose proof (kernel_from_domain_col _ _ _ Kp E1) as K1. pose proof (range_from_kernel_col _ _ _ _ K1 E2) as K2.
    exists p, k. split.
    + eapply derived_partition_common with (s := s); eauto.
    + exists q, space, col. unfold lose, give_user; cbn [c_rt]. split; [|exact K2].
      destruct A2 as (g2 & _). pose proof (proj1 (proj1 g1)). rewrite (proj2 (proj1 g2)) by lia. rewrite (proj2 (proj1 g1)) by lia. exact Kp.
Qed.

(** The lost partition is never released while the kernel index space exists, whatever the program does
    later; in general a lost reference stays forever. *)
Theorem C15_lost_forever : forall h c h' c' k q col,
  reaches client_init h c -> In k (c_lost c) -> l_kind (c_rt c) k = OPart q col ->
  reaches c h' c' -> (alive (c_rt c') k <-> alive (c_rt c') q).
Proof.
  intros h c h' c' k q col R Hk Kk R'. pose proof (ok_start R) as O. destruct (ok_reaches O R') as [O' [_ K]].
  pose proof (proj1 (reaches_lost h' _ (proj2 R')) k) as LE. rewrite cnt_In in Hk.
  assert (OW : 0 < owners c k) by (unfold owners; lia). pose proof (ok_owned _ O OW) as lt.
  assert (OW' : 0 < owners c' k) by (unfold owners; lia).
  pose proof (ok_par O lt Kk) as [lq kq]. unfold alive. rewrite (ok_refs k O'), (ok_refs q O'). unfold expected_refs.
  rewrite (K k lt), Kk, (K q lq), kq. destruct (Nat.eqb_spec (owners c' q) 0); lia.
Qed.

(** ** C49: the stencil matrix builders *)

Lemma create_inv k s a s' : rt_create k s = ROk a s' ->
  a = l_next s /\ l_next s' = S (l_next s) /\ l_kind s' = fupd (l_kind s) (l_next s) k.
Proof. unfold rt_create. intros H. injection H as <- <-. auto. Qed.
Lemma create_region_inv is fs s r s' : rt_create_logical_region is fs s = ROk r s' ->
  r = Region (l_next s) is fs /\ l_next s' = S (l_next s) /\ l_kind s' = fupd (l_kind s) (l_next s) (ORegion is fs).
Proof.
  unfold rt_create_logical_region. intros H. binv H. apply need_inv in e. subst. binv H. apply need_inv in e. subst.
  binv H. apply create_inv in e. destruct e as (-> & N & K). injection H as <- <-. auto.
Qed.
Lemma create_part_inv' q k s a s' : rt_create_partition q k s = ROk a s' ->
  a = l_next s /\ l_next s' = S (l_next s) /\ l_kind s' = fupd (l_kind s) (l_next s) (OPart q k).
Proof.
  unfold rt_create_partition. intros H. binv H. apply need_inv in e. subst. binv H. apply need_inv in e. subst.
  binv H. destruct (l_kind s q); try discriminate. injection e as _ <-. apply create_inv in H. exact H.
Qed.
Lemma share_inv o s a s' : rt_share o s = ROk a s' -> l_next s' = l_next s /\ l_kind s' = l_kind s.
Proof. unfold rt_share. intros H. binv H. apply need_inv in e. subst. injection H as _ <-. auto. Qed.
Lemma share_region_inv r s a s' : share_region r s = ROk a s' -> l_next s' = l_next s /\ l_kind s' = l_kind s.
Proof.
  unfold share_region. intros H. binv H. apply share_inv in e. binv H. apply share_inv in e0. apply share_inv in H.
  destruct e, e0, H. split; congruence.
Qed.

Ltac fk := repeat first [rewrite fupd_same | rewrite fupd_other by lia].

Lemma coo_stencil_shape s m L s' : create_coo_stencil_matrix s = ROk (m, L) s' ->
  exists is fs r cs ip, L = [is; fs; r; cs; ip] /\ m = MCOO (Region r is fs) /\
    is = l_next s /\ fs = S is /\ r = S fs /\ cs = S r /\ ip = S cs /\
    l_kind s' is = OSpace /\ l_kind s' fs = OFields /\ l_kind s' r = ORegion is fs /\ l_kind s' cs = OSpace /\
    l_kind s' ip = OPart is cs /\ l_next s' = S ip.
Proof.
  unfold create_coo_stencil_matrix, rt_create_index_space, rt_create_field_space, coo_ctor. intros H.
  binv H. apply create_inv in e. destruct e as (-> & N1 & K1).
  binv H. apply create_inv in e. destruct e as (-> & N2 & K2).
  binv H. apply create_region_inv in e. destruct e as (-> & N3 & K3).
  binv H. apply create_inv in e. destruct e as (-> & N4 & K4).
  binv H. apply create_part_inv' in e. destruct e as (-> & N5 & K5).
  binv H. apply lpart_inv in e. subst.
  binv H. binv e. apply share_region_inv in e0. destruct e0 as [N6 K6]. injection e as <- <-.
  injection H as <- <- <-. cbn [rg_id].
  rewrite N4, N3, N2, N1 in *. exists (l_next s), (S (l_next s)), (S (S (l_next s))), (S (S (S (l_next s)))), (S (S (S (S (l_next s))))).
  rewrite K6, K5, K4, K3, K2, K1. fk. repeat split; congruence.
Qed.

Lemma csr_stencil_shape s m L s' : create_csr_stencil_matrix s = ROk (m, L) s' ->
  exists ks rs kf rf kr rr cs kp rp, L = [ks; rs; kf; rf; kr; rr; cs; kp; rp] /\
    m = MCSR (Region kr ks kf) (Region rr rs rf) /\
    ks = l_next s /\ rs = S ks /\ kf = S rs /\ rf = S kf /\ kr = S rf /\ rr = S kr /\ cs = S rr /\ kp = S cs /\ rp = S kp /\
    l_kind s' ks = OSpace /\ l_kind s' rs = OSpace /\ l_kind s' kf = OFields /\ l_kind s' rf = OFields /\
    l_kind s' kr = ORegion ks kf /\ l_kind s' rr = ORegion rs rf /\ l_kind s' cs = OSpace /\
    l_kind s' kp = OPart ks cs /\ l_kind s' rp = OPart rs cs /\ l_next s' = S rp.
Proof.
  unfold create_csr_stencil_matrix, rt_create_index_space, rt_create_field_space, csr_ctor. intros H.
  binv H. apply create_inv in e. destruct e as (-> & N1 & K1).
  binv H. apply create_inv in e. destruct e as (-> & N2 & K2).
  binv H. apply create_inv in e. destruct e as (-> & N3 & K3).
  binv H. apply create_inv in e. destruct e as (-> & N4 & K4).
  binv H. apply create_region_inv in e. destruct e as (-> & N5 & K5).
  binv H. apply create_region_inv in e. destruct e as (-> & N6 & K6).
  binv H. apply create_inv in e. destruct e as (-> & N7 & K7).
  binv H. apply create_part_inv' in e. destruct e as (-> & N8 & K8).
  binv H. apply lpart_inv in e. subst.
  binv H. apply create_part_inv' in e. destruct e as (-> & N9 & K9).
  binv H. apply lpart_inv in e. subst.
  binv H. binv e. apply share_region_inv in e0. destruct e0 as [N10 K10].
  binv e. apply share_region_inv in e0. destruct e0 as [N11 K11]. injection e as <- <-.
  injection H as <- <- <-. cbn [rg_id].
  rewrite N8, N7, N6, N5, N4, N3, N2, N1 in *.
  set (n := l_next s) in *.
  exists n, (S n), (S (S n)), (S (S (S n))), (S (S (S (S n)))), (S (S (S (S (S n))))), (S (S (S (S (S (S n)))))),
    (S (S (S (S (S (S (S n))))))), (S (S (S (S (S (S (S (S n)))))))).
  rewrite K11, K10, K9, K8, K7, K6, K5, K4, K3, K2, K1. fk. repeat split; congruence.
Qed.

(** What [create_*_stencil_matrix] does: it returns a matrix and loses the references [L], all to new
    objects.  When the returned matrix is destroyed, exactly the objects [L] remain, each with one
    reference that nobody holds; every other count is what it was before the call. *)
Definition leaks (c c' : client) (L : list nat) : Prop :=
  NoDup L /\ (forall o, In o L -> ~ alive (c_rt c) o) /\
  (forall o, In o L -> alive (c_rt c') o) /\
  c_user c' = c_user c /\ c_lost c' = L ++ c_lost c /\
  (exists m, c_env c' = (c_fresh c, CMat m) :: c_env c) /\
  exists c'', step c' (ADelete (c_fresh c)) = COk c'' /\
    c_user c'' = c_user c /\ c_env c'' = c_env c /\
    (forall o, In o L -> l_refs (c_rt c'') o = 1) /\
    (forall o, ~ In o L -> l_refs (c_rt c'') o = l_refs (c_rt c) o).

(** A lost reference to an object that is not a partition keeps it alive forever; a lost reference to a
    partition keeps it alive as long as its parent. *)
Theorem C49_lost_forever : forall h c h' c' o,
  reaches client_init h c -> In o (c_lost c) -> reaches c h' c' ->
  (forall q k, l_kind (c_rt c) o = OPart q k -> In q (c_lost c)) -> alive (c_rt c') o.
Proof.
  intros h c h' c' o R Ho R' HP. pose proof (ok_start R) as O. destruct (ok_reaches O R') as [O' [_ K]].
  assert (OWN : forall x, In x (c_lost c) -> x < l_next (c_rt c) /\ owners c' x <> 0).
  { intros x Hx. rewrite cnt_In in Hx. split; [apply ok_owned; [auto|unfold owners; lia]|].
    pose proof (proj1 (reaches_lost h' _ (proj2 R')) x). unfold owners. lia. }
  destruct (OWN o Ho) as [lt no]. unfold alive. rewrite (ok_refs o O'). unfold expected_refs. rewrite (K o lt).
  destruct (l_kind (c_rt c) o) as [| |i f|q k] eqn:e; auto.
  destruct (OWN q (HP q k eq_refl)) as [lq nq]. destruct (Nat.eqb_spec (owners c' q) 0); auto.
Qed.

Lemma fresh_deletable c c' m : ok c -> c_env c' = (c_fresh c, CMat m) :: c_env c -> legal c' (ADelete (c_fresh c)).
Proof.
  intros O E. cbn [legal]. exists (CMat m). rewrite E. cbn [lookup]. rewrite Nat.eqb_refl. split; [auto|].
  intros m' _ k p Hp (e & He & En). destruct Hp as [Hp|Hp]; [discriminate|].
  pose proof (i_env (ok_inv O) _ _ Hp) as P. cbn in P. pose proof (po_mats P) as PM. rewrite Forall_forall in PM.
  destruct (PM e He) as [(q & cc & _ & (m2 & Hm & _)) _]. rewrite En in Hm.
  assert (c_fresh c < c_fresh c); [|lia]. apply (i_fresh (ok_inv O)). apply in_map_iff. exists (c_fresh c, CMat m2). auto.
Qed.

(** From the shape of the result to [leaks]. *)
Lemma leaks_intro h c c' m L s' a :
  reaches client_init h c -> legal c a -> step c a = COk c' ->
  c' = lose L (new_obj c (CMat m) s') -> NoDup L -> (forall o, In o L -> l_next (c_rt c) <= o) ->
  (forall o q k, In o L -> l_kind s' o = OPart q k -> In q L) -> leaks c c' L.
Proof.
  intros R La e EC ND FR CL. pose proof (ok_start R) as O. destruct (ok_step _ O La e) as [O' K].
  assert (R1 : reaches c [a] c').
  { split; cbn; [split; [auto|intros; auto]|]. rewrite e. reflexivity. }
  pose proof (reaches_app R R1) as R'.
  assert (EE : c_env c' = (c_fresh c, CMat m) :: c_env c) by (subst c'; reflexivity).
  assert (LO : c_lost c' = L ++ c_lost c) by (subst c'; reflexivity).
  assert (US : c_user c' = c_user c) by (subst c'; reflexivity).
  assert (RT : c_rt c' = s') by (subst c'; reflexivity).
  assert (PL : forall o, In o L -> forall q k, l_kind (c_rt c') o = OPart q k -> In q (c_lost c')).
  { intros o Ho q k. rewrite RT, LO. intros Kq. apply in_app_iff. left. eapply CL; eauto. }
  pose proof (@fresh_deletable c c' m O EE) as LD.
  destruct (@C19_destroy_exact _ c' (c_fresh c) (CMat m) R') as (c'' & E2 & U2 & L2 & En2 & C2); [rewrite EE; cbn; rewrite Nat.eqb_refl; auto|auto|].
  destruct (ok_step _ O' LD E2) as [O2 K2].
  assert (E3 : c_env c'' = c_env c).
  { cbn [step] in E2. rewrite EE in E2. cbn [lookup] in E2. rewrite Nat.eqb_refl in E2. unfold run in E2.
    destruct (dtor (CMat m) (c_rt c')); try discriminate. injection E2 as <-. cbn [del_obj c_env]. rewrite EE. cbn [unset].
    rewrite Nat.eqb_refl. reflexivity. }
  assert (OW : forall x, owners c'' x = owners c x + cnt L x).
  { intros x. unfold owners. rewrite U2, US, L2, LO, E3. cnt_simp. lia. }
  assert (Z : forall o, l_next (c_rt c) <= o -> owners c o = 0).
  { intros o Ho. destruct (Nat.eq_dec (owners c o) 0); auto. assert (o < l_next (c_rt c)) by (apply ok_owned; auto; lia). lia. }
  assert (K3 : kext (c_rt c) (c_rt c'')) by (eapply kext_trans; eauto).
  assert (INL : forall o, In o L -> cnt L o = 1).
  { intros o Ho. unfold cnt. apply (NoDup_count_occ' Nat.eq_dec L); auto. }
  assert (NIL : forall o, ~ In o L -> cnt L o = 0).
  { intros o Ho. rewrite cnt_In in Ho. lia. }
  split; [auto|]. split. { intros o Ho A. apply (ok_lt O) in A. apply FR in Ho. lia. }
  split. { intros o Ho. eapply C49_lost_forever with (c := c') (h' := []); [exact R'| |split; cbn; auto|exact (PL o Ho)].
           rewrite LO. apply in_app_iff. auto. }
  split; [auto|]. split; [auto|]. split; [eauto|]. exists c''.
  split; [auto|]. split; [congruence|]. split; [auto|]. split.
  - intros o Ho. rewrite (ok_refs o O2). unfold expected_refs. rewrite !OW, (Z o), (INL o) by auto.
    assert (lt : o < l_next (c_rt c')).
    { apply ok_owned; auto. unfold owners. rewrite LO. cnt_simp. rewrite (INL o Ho). lia. }
    rewrite (proj2 K2 o lt), RT. destruct (l_kind s' o) as [| |i f|q k] eqn:ek; auto.
    pose proof (CL _ _ _ Ho ek) as Hq. rewrite OW, (INL q Hq). destruct (Nat.eqb_spec (owners c q + 1) 0); lia.
  - intros o Ho. destruct (Nat.lt_ge_cases o (l_next (c_rt c))) as [lt|ge].
    + apply refs_same; auto. intros x Hx. rewrite OW, NIL; [lia|]. intros Hx'. apply FR in Hx'. lia.
    + rewrite (ok_refs o O2). unfold expected_refs. rewrite !OW, (Z o), (NIL o) by auto.
      destruct (Nat.eq_dec (l_refs (c_rt c) o) 0) as [z|z]; [|apply (ok_lt O) in z; lia]. rewrite z.
      destruct (l_kind (c_rt c'') o); auto. destruct (_ =? 0); auto.
Qed.


Definition noab {A} (m : rt A) : Prop := forall s, m s <> RAbort.
Lemma noab_bind {A B} (m : rt A) (f : A -> rt B) : noab m -> (forall a, noab (f a)) -> noab (bind m f).
Proof. intros H1 H2 s. unfold bind. destruct (m s) eqn:e; [apply H2|discriminate|destruct (H1 _ e)]. Qed.
Lemma noab_ret {A} (a : A) : noab (ret a). Proof. discriminate. Qed.
Lemma noab_need o : noab (need o). Proof. intros s. unfold need. destruct (aliveb s o); discriminate. Qed.
Ltac noab := repeat first [apply noab_bind; [|intros] | apply noab_ret | apply noab_need
  | intros ?; cbn; repeat match goal with |- context [match ?x with _ => _ end] => destruct x end; discriminate].
Lemma noab_coo : noab create_coo_stencil_matrix.
Proof. unfold create_coo_stencil_matrix, coo_ctor, share_region, rt_share, rt_create_logical_region, rt_create_partition, rt_logical_partition. noab. Qed.
Lemma noab_csr : noab create_csr_stencil_matrix.
Proof. unfold create_csr_stencil_matrix, csr_ctor, share_region, rt_share, rt_create_logical_region, rt_create_partition, rt_logical_partition. noab. Qed.

Theorem C49_coo_leaks_five : forall h c, reaches client_init h c ->
  exists c', step c AStencilCoo = COk c' /\
  exists is fs r cs ip,
    l_kind (c_rt c') is = OSpace /\ l_kind (c_rt c') fs = OFields /\ l_kind (c_rt c') r = ORegion is fs /\
    l_kind (c_rt c') cs = OSpace /\ l_kind (c_rt c') ip = OPart is cs /\
    leaks c c' [is; fs; r; cs; ip].
Proof.
  intros h c R. pose proof (step_good AStencilCoo (ok_inv (ok_start R)) I) as G.
  destruct (step c AStencilCoo) as [c'| |] eqn:e; [|destruct G|].
  2:{ cbn [step] in e. unfold run in e. destruct (create_coo_stencil_matrix (c_rt c)) eqn:E; try discriminate. destruct (@noab_coo _ E). }
  exists c'. split; [auto|]. clear G. pose proof e as e'. cbn [step] in e. unfold run in e.
  destruct (create_coo_stencil_matrix (c_rt c)) as [[m L] s'| |] eqn:E; try discriminate. injection e as EC.
  destruct (coo_stencil_shape _ E) as (is & fs & r & cs & ip & HL & Hm & H1 & H2 & H3 & H4 & H5 & K1 & K2 & K3 & K4 & K5 & N).
  cbn [fst snd] in EC. exists is, fs, r, cs, ip. rewrite <- EC at 1 2 3 4 5. cbn [lose new_obj c_rt].
  split; [auto|]. split; [auto|]. split; [auto|]. split; [auto|]. split; [auto|]. rewrite <- HL.
  eapply leaks_intro; eauto; subst L.
  - exact I.
  - repeat constructor; cbn [In]; lia.
  - cbn [In]. intros; lia.
  - cbn [In]. intros o q k Ho Kq.
    destruct Ho as [<-|[<-|[<-|[<-|[<-|[]]]]]]; try congruence. rewrite K5 in Kq. injection Kq as <- <-. auto.
Qed.

Theorem C49_csr_leaks_nine : forall h c, reaches client_init h c ->
  exists c', step c AStencilCsr = COk c' /\
  exists ks rs kf rf kr rr cs kp rp,
    l_kind (c_rt c') ks = OSpace /\ l_kind (c_rt c') rs = OSpace /\ l_kind (c_rt c') kf = OFields /\
    l_kind (c_rt c') rf = OFields /\ l_kind (c_rt c') kr = ORegion ks kf /\ l_kind (c_rt c') rr = ORegion rs rf /\
    l_kind (c_rt c') cs = OSpace /\ l_kind (c_rt c') kp = OPart ks cs /\ l_kind (c_rt c') rp = OPart rs cs /\
    leaks c c' [ks; rs; kf; rf; kr; rr; cs; kp; rp].
Proof.
  intros h c R. pose proof (step_good AStencilCsr (ok_inv (ok_start R)) I) as G.
  destruct (step c AStencilCsr) as [c'| |] eqn:e; [|destruct G|].
  2:{ cbn [step] in e. unfold run in e. destruct (create_csr_stencil_matrix (c_rt c)) eqn:E; try discriminate. destruct (@noab_csr _ E). }
  exists c'. split; [auto|]. clear G. pose proof e as e'. cbn [step] in e. unfold run in e.
  destruct (create_csr_stencil_matrix (c_rt c)) as [[m L] s'| |] eqn:E; try discriminate. injection e as EC.
  destruct (csr_stencil_shape _ E) as (ks & rs & kf & rf & kr & rr & cs & kp & rp & HL & Hm & H1 & H2 & H3 & H4 & H5 & H6 & H7 & H8 & H9
    & K1 & K2 & K3 & K4 & K5 & K6 & K7 & K8 & K9 & N).
  cbn [fst snd] in EC. exists ks, rs, kf, rf, kr, rr, cs, kp, rp. rewrite <- EC at 1 2 3 4 5 6 7 8 9. cbn [lose new_obj c_rt].
  do 9 (split; [auto|]). rewrite <- HL.
  eapply leaks_intro; eauto; subst L.
  - exact I.
  - repeat constructor; cbn [In]; lia.
  - cbn [In]. intros; lia.
  - cbn [In]. intros o q k Ho Kq.
    destruct Ho as [<-|[<-|[<-|[<-|[<-|[<-|[<-|[<-|[<-|[]]]]]]]]]]; try congruence; [rewrite K8 in Kq|rewrite K9 in Kq];
      injection Kq as <- <-; auto.
Qed.

(** ** C60: copying a planner (the implicitly generated copy constructor) *)

(** [m] adds exactly the references [L] and returns [a]. *)
Definition shares {A} (m : rt A) (a : A) (L : list nat) : Prop :=
  forall s, (forall o, In o L -> alive s o) ->
  exists s', m s = ROk a s' /\ l_kind s' = l_kind s /\ forall o, l_refs s' o = l_refs s o + cnt L o.
Lemma shares_ret {A} (a : A) : shares (ret a) a [].
Proof. intros s _. exists s. split; [reflexivity|]. split; [reflexivity|]. intros o. rewrite cnt_nil. lia. Qed.
Lemma shares_bind {A B} (m : rt A) (f : A -> rt B) a b L1 L2 : shares m a L1 -> shares (f a) b L2 -> shares (bind m f) b (L1 ++ L2).
Proof.
  intros H1 H2 s AL. destruct (H1 s) as (s1 & E1 & K1 & R1); [intros; apply AL, in_app_iff; auto|].
  destruct (H2 s1) as (s2 & E2 & K2 & R2).
  { intros o Ho. unfold alive. rewrite R1. assert (alive s o) as X by (apply AL, in_app_iff; auto). unfold alive in X. lia. }
  exists s2. unfold bind. rewrite E1. split; [auto|]. split; [congruence|]. intros o. rewrite R2, R1. cnt_simp. lia.
Qed.
Lemma shares_share o : shares (rt_share o) tt [o].
Proof.
  intros s AL. assert (A : alive s o) by (apply AL; cbn; auto). unfold rt_share, bind, need.
  apply aliveb_true in A. rewrite A. eexists. split; [reflexivity|]. cbn [l_kind l_refs]. split; [auto|]. intros x.
  unfold fupd. cnt_simp. destruct (Nat.eqb_spec x o), (Nat.eq_dec o x); subst; try lia; congruence.
Qed.
Lemma shares_vec_copy v : shares (vec_copy v) v (vec_refs v).
Proof.
  unfold vec_copy, vec_refs.
  change [v_space v; v_fields v; rg_id (v_region v); v_color v; v_part v]
    with ([v_space v] ++ [v_fields v] ++ [rg_id (v_region v)] ++ [v_color v] ++ [v_part v] ++ []).
  repeat (eapply shares_bind; [apply shares_share|]). apply shares_ret.
Qed.
Lemma shares_mapM {A} (f : A -> rt A) g l : (forall a, shares (f a) a (g a)) -> shares (mapM f l) l (flat_map g l).
Proof.
  intros H. induction l as [|a l IH]; cbn [mapM flat_map]; [apply shares_ret|].
  eapply shares_bind; [apply H|]. rewrite <- (app_nil_r (flat_map g l)). eapply shares_bind; [apply IH|apply shares_ret].
Qed.

(** The references of a planner's vectors. *)
Definition planner_vector_refs (p : planner) : list nat :=
  flat_map vec_refs (p_sol p) ++ flat_map vec_refs (p_rhs p) ++ flat_map (flat_map vec_refs) (p_work p).
Lemma planner_refs_parts p o : cnt (planner_refs p) o = cnt (planner_vector_refs p) o + cnt (planner_own_refs p) o.
Proof. unfold planner_refs, planner_vector_refs, planner_own_refs. cnt_simp. lia. Qed.

(** The copy has the same members, so it will release the same references, but only the references of
    its vectors have been acquired. *)
Theorem C60_copy_acquires_too_little : forall h c n p, reaches client_init h c ->
  lookup n (c_env c) = Some (CPlan p) ->
  exists s', planner_implicit_copy p (c_rt c) = ROk p s' /\
    forall o, l_refs s' o + cnt (planner_own_refs p) o = l_refs (c_rt c) o + cnt (obj_refs (CPlan p)) o.
Proof.
  intros h c n p R Hn. pose proof (ok_start R) as O. destruct (ok_inv O) as [(LP & LN & _ & _ & _ & W) _ _ _].
  assert (S : shares (planner_implicit_copy p) p (planner_vector_refs p)).
  { unfold planner_implicit_copy, planner_vector_refs.
    eapply shares_bind; [apply shares_mapM, shares_vec_copy|].
    eapply shares_bind; [apply shares_mapM, shares_vec_copy|].
    rewrite <- (app_nil_r (flat_map (flat_map vec_refs) (p_work p))).
    eapply shares_bind; [apply shares_mapM; intros; apply shares_mapM, shares_vec_copy|].
    destruct p; apply shares_ret. }
  destruct (S (c_rt c)) as (s' & E & _ & RR).
  { intros o Ho. apply (wf_E W), in_app_iff. left. apply in_flat_map. exists (n, CPlan p). split; [apply lookup_In, Hn|].
    cbn [snd obj_refs]. rewrite cnt_In in *. rewrite planner_refs_parts. lia. }
  exists s'. split; [auto|]. intros o. rewrite RR. cbn [obj_refs]. rewrite planner_refs_parts. lia.
Qed.

(** So if some object (not a partition) that the planner itself holds -- e.g. its workspace field space --
    has no other holders to make up for it, destroying the copy and the original is illegal. *)
Theorem C60_double_release : forall h c n p o, reaches client_init h c ->
  lookup n (c_env c) = Some (CPlan p) ->
  (forall q k, l_kind (c_rt c) o <> OPart q k) ->
  In o (planner_own_refs p) -> owners c o = cnt (planner_refs p) o ->
  (let* copy := planner_implicit_copy p in planner_dtor copy ;; planner_dtor p) (c_rt c) = RIllegal.
Proof.
  intros h c n p o R Hn NP Ho OW. pose proof (ok_start R) as O.
  destruct (C60_copy_acquires_too_little _ R Hn) as (s' & E & RR).
  assert (KE : l_kind s' o = l_kind (c_rt c) o).
  { unfold planner_implicit_copy in E. clear -E.
    assert (SK : forall l s l' s', mapM vec_copy l s = ROk l' s' -> l_kind s' = l_kind s).
    { assert (VK : forall v s v' s', vec_copy v s = ROk v' s' -> l_kind s' = l_kind s).
      { intros v s v' s1 H. unfold vec_copy in H. do 5 (apply bind_inv in H; let X := fresh "X" in destruct H as (? & ? & X & H); apply share_inv in X; destruct X as [_ X]).
        injection H as _ <-. congruence. }
      induction l; intros s l' s1 H; cbn [mapM] in H; [injection H as _ <-; auto|].
      binv H. apply VK in e. binv H. apply IHl in e0. injection H as _ <-. congruence. }
    assert (SK2 : forall l s l' s', mapM (mapM vec_copy) l s = ROk l' s' -> l_kind s' = l_kind s).
    { induction l; intros s l' s1 H; cbn [mapM] in H; [injection H as _ <-; auto|].
      binv H. apply SK in e. binv H. apply IHl in e0. injection H as _ <-. congruence. }
    binv E. apply SK in e. binv E. apply SK in e0. binv E. apply SK2 in e1. injection E as _ <-. congruence. }
  unfold bind at 1. rewrite E. pose proof (drops_planner p) as D.
  pose proof (drops_bind (fun _ : unit => planner_dtor p) D (fun _ : unit => D)) as D2.
  destruct ((planner_dtor p ;; planner_dtor p) s') as [u s2| |] eqn:E2; auto.
  - assert (NP' : forall q k, l_kind s' o <> OPart q k) by (intros q k; rewrite KE; auto).
    pose proof (d_eq D2 _ _ E2 NP') as X. specialize (RR o). rewrite (ok_refs o O) in RR. unfold expected_refs in RR.
    assert (Y : l_refs s' o + cnt (planner_own_refs p) o = owners c o + cnt (planner_refs p) o).
    { destruct (l_kind (c_rt c) o) eqn:ek; auto. exfalso. eapply NP; eauto. }
    rewrite OW in Y. cnt_simp. rewrite cnt_In in Ho. lia.
  - destruct (d_noabort D2 _ E2).
Qed.

(** ** C19: the Laplacian builders release their temporaries *)

(** Unlike the stencil builders, they leave nothing behind: once the returned matrix is destroyed every
    count is what it was before the call. *)
Theorem C19_laplacian_balanced : forall h c ls a c', reaches client_init h c ->
  a = ALaplacianCoo ls \/ a = ALaplacianCsr ls -> legal c a -> step c a = COk c' -> leaks c c' [].
Proof.
  intros h c ls a c' R Ha L e. pose proof e as e0.
  destruct Ha as [->| ->]; cbn [step] in e; unfold run in e.
  - destruct (coo_negative_laplacian ls (c_rt c)) as [m s'| |] eqn:E; try discriminate. injection e as EC.
    apply (@leaks_intro h c c' m [] s' _ R L e0 (eq_sym EC)); [constructor|intros ? []|intros ? ? ? []].
  - destruct (csr_negative_laplacian ls (c_rt c)) as [m s'| |] eqn:E; try discriminate. injection e as EC.
    apply (@leaks_intro h c c' m [] s' _ R L e0 (eq_sym EC)); [constructor|intros ? []|intros ? ? ? []].
Qed.
