(** OwnershipDrops: what a destructor does to the counts, whether or not it is called legally. *)
Require Import List Arith Bool Lia.
From Verif Require Import Ownership OwnershipSpec OwnershipFacts OwnershipPlanner.
Import ListNotations.
Set Implicit Arguments.

(** Live partitions have live parents. *)
Definition parents_alive (s : lstate) : Prop :=
  forall p q k, alive s p -> l_kind s p = OPart q k -> alive s q /\ l_kind s q = OSpace.

(** [m] releases exactly the references [L] (partitions may also go with their parent) and never aborts. *)
Record drops {A} (m : rt A) (L : list nat) : Prop := {
  d_noabort : forall s, m s <> RAbort;
  d_kind : forall s a s', m s = ROk a s' -> l_kind s' = l_kind s;
  d_next : forall s a s', m s = ROk a s' -> l_next s' = l_next s;
  d_par : forall s a s', m s = ROk a s' -> parents_alive s -> parents_alive s';
  d_le : forall s a s' o, m s = ROk a s' -> l_refs s' o + cnt L o <= l_refs s o \/ (exists q k, l_kind s o = OPart q k) /\ l_refs s' o = 0;
  d_eq : forall s a s' o, m s = ROk a s' -> (forall q k, l_kind s o <> OPart q k) -> l_refs s o = cnt L o + l_refs s' o
}.

Lemma drops_ret {A} (a : A) : drops (ret a) [].
Proof.
  constructor; unfold ret; intros; try congruence; try (injection H as _ <-); auto; cnt_simp; lia.
Qed.
Lemma drops_bind {A B} (m : rt A) (f : A -> rt B) L1 L2 : drops m L1 -> (forall a, drops (f a) L2) -> drops (bind m f) (L1 ++ L2).
Proof.
  intros D1 D2.
  assert (S : forall s b s', bind m f s = ROk b s' -> exists a s1, m s = ROk a s1 /\ f a s1 = ROk b s').
  { intros s b s' H. unfold bind in H. destruct (m s) as [a s1| |] eqn:e; try discriminate. eauto. }
  constructor.
  - intros s H. unfold bind in H. destruct (m s) as [a s1| |] eqn:e; try discriminate.
    + eapply (d_noabort (D2 a)); eauto.
    + eapply (d_noabort D1); eauto.
  - intros s b s' H. destruct (S _ _ _ H) as (a & s1 & H1 & H2). rewrite (d_kind (D2 a) _ H2), (d_kind D1 _ H1). reflexivity.
  - intros s b s' H. destruct (S _ _ _ H) as (a & s1 & H1 & H2). rewrite (d_next (D2 a) _ H2), (d_next D1 _ H1). reflexivity.
  - intros s b s' H P. destruct (S _ _ _ H) as (a & s1 & H1 & H2). eapply (d_par (D2 a)); eauto. eapply (d_par D1); eauto.
  - intros s b s' o H. destruct (S _ _ _ H) as (a & s1 & H1 & H2). cnt_simp.
    pose proof (d_le (D2 a) _ o H2) as X2. rewrite (d_kind D1 _ H1) in X2. destruct X2 as [X2|X2]; [|right; tauto].
    destruct (d_le D1 _ o H1) as [X1|[X1 X1']]; [left; lia|]. right. split; [auto|lia].
  - intros s b s' o H K. destruct (S _ _ _ H) as (a & s1 & H1 & H2). cnt_simp.
    rewrite (d_eq D1 _ _ H1 K). rewrite <- (d_kind D1 _ H1) in K. rewrite (d_eq (D2 a) _ _ H2 K). lia.
Qed.
Lemma drops_conv {A} (m : rt A) L L' : ceq L L' -> drops m L -> drops m L'.
Proof.
  intros C [D1 D2 D3 D4 D5 D6]. constructor; auto.
  - intros s a s' o H. rewrite <- (C o). eapply D5; eauto.
  - intros s a s' o H K. rewrite <- (C o). eapply D6; eauto.
Qed.
Lemma drops_iterM {A} (f : A -> rt unit) (g : A -> list nat) l :
  (forall a, drops (f a) (g a)) -> drops (iterM f l) (flat_map g l).
Proof. intros H. induction l; cbn; [apply drops_ret|]. apply drops_bind; auto. Qed.

Lemma drop_inv o s a s' : rt_drop o s = ROk a s' ->
  alive s o /\ s' = LState (l_next s) (l_kind s) (fupd (l_refs s) o (l_refs s o - 1)).
Proof.
  unfold rt_drop, bind, need. destruct (aliveb s o) eqn:e; [|discriminate]. apply aliveb_true in e.
  intros H. injection H as _ <-. auto.
Qed.
Lemma drop_noabort o s : rt_drop o s <> RAbort.
Proof. unfold rt_drop, bind, need. destruct (aliveb s o); discriminate. Qed.

(** The three destructors of objects that nothing depends on. *)
Lemma drops_plain (chk : rt unit) o :
  (forall s, chk s = ROk tt s /\ l_kind s o <> OSpace \/ chk s = RIllegal) ->
  drops (chk ;; rt_drop o) [o].
Proof.
  intros C.
  assert (S : forall s a s', (chk ;; rt_drop o) s = ROk a s' -> l_kind s o <> OSpace /\ alive s o /\
    s' = LState (l_next s) (l_kind s) (fupd (l_refs s) o (l_refs s o - 1))).
  { intros s a s' H. unfold bind in H. destruct (C s) as [[e K]|e]; rewrite e in H; [|discriminate].
    destruct (drop_inv _ _ H). auto. }
  constructor.
  - intros s H. unfold bind in H. destruct (C s) as [[e K]|e]; rewrite e in H; [|discriminate]. apply (drop_noabort _ _ H).
  - intros s a s' H. destruct (S _ _ _ H) as (_ & _ & ->). reflexivity.
  - intros s a s' H. destruct (S _ _ _ H) as (_ & _ & ->). reflexivity.
  - intros s a s' H P p q k. destruct (S _ _ _ H) as (NS & A & ->). unfold alive in *; cbn. unfold fupd.
    intros Hp Hk. assert (Ap : l_refs s p <> 0) by (destruct (Nat.eqb_spec p o); subst; lia).
    destruct (P p q k Ap Hk) as [Aq Kq]. split; [|exact Kq].
    destruct (Nat.eqb_spec q o); [subst; congruence|exact Aq].
  - intros s a s' x H. destruct (S _ _ _ H) as (_ & A & ->). left. cbn. unfold fupd, alive in *. cnt_simp.
    destruct (Nat.eqb_spec x o); destruct (Nat.eq_dec o x); subst; try lia.
  - intros s a s' x H _. destruct (S _ _ _ H) as (_ & A & ->). cbn. unfold fupd, alive in *. cnt_simp.
    destruct (Nat.eqb_spec x o); destruct (Nat.eq_dec o x); subst; try lia.
Qed.
Lemma drops_fields o : drops (rt_destroy_field_space o) [o].
Proof.
  apply (@drops_plain _ o). intros s. destruct (l_kind s o) eqn:e; auto. left. split; [auto|congruence].
Qed.
Lemma drops_region r : drops (rt_destroy_logical_region r) [rg_id r].
Proof.
  apply (@drops_plain _ (rg_id r)). intros s. destruct (l_kind s (rg_id r)) eqn:e; auto. left. split; [auto|congruence].
Qed.
Lemma drops_part o : drops (rt_destroy_index_partition o) [o].
Proof.
  apply (@drops_plain _ o). intros s. destruct (l_kind s o) eqn:e; auto. left. split; [auto|congruence].
Qed.
Lemma is_part_of_spec q k : is_part_of q k = true <-> exists c, k = OPart q c.
Proof.
  destruct k; cbn; split; try discriminate; try (intros [? H]; discriminate H).
  - intros H. apply Nat.eqb_eq in H. subst. eauto.
  - intros [c H]. injection H as <- <-. apply Nat.eqb_refl.
Qed.
Lemma drops_space o : drops (rt_destroy_index_space o) [o].
Proof.
  assert (S : forall s a s', rt_destroy_index_space o s = ROk a s' -> l_kind s o = OSpace /\ alive s o /\
    l_kind s' = l_kind s /\ l_next s' = l_next s /\
    forall x, l_refs s' x = if Nat.eq_dec x o then l_refs s o - 1
      else if is_part_of o (l_kind s x) && (l_refs s o =? 1) then 0 else l_refs s x).
  { intros s a s' H. unfold rt_destroy_index_space in H. unfold bind at 1 in H.
    destruct (l_kind s o) eqn:K; try discriminate. unfold bind at 1 in H.
    destruct (rt_drop o s) as [u s1| |] eqn:D; try discriminate.
    destruct (drop_inv _ _ D) as [A ->]. injection H as _ <-. split; [auto|]. split; [auto|].
    unfold aliveb; cbn [l_refs l_kind l_next]. rewrite fupd_same. unfold alive in A.
    destruct (Nat.eqb_spec (l_refs s o - 1) 0) as [z|z]; cbn [negb l_kind l_next l_refs].
    - split; [auto|]. split; [auto|]. intros x. replace (l_refs s o =? 1) with true by (symmetry; apply Nat.eqb_eq; lia).
      rewrite andb_true_r. destruct (Nat.eq_dec x o) as [->|ne].
      + rewrite K. cbn. rewrite fupd_same. reflexivity.
      + rewrite fupd_other by auto. reflexivity.
    - split; [auto|]. split; [auto|]. intros x. replace (l_refs s o =? 1) with false by (symmetry; apply Nat.eqb_neq; lia).
      rewrite andb_false_r. destruct (Nat.eq_dec x o) as [->|ne].
      + rewrite fupd_same. reflexivity.
      + rewrite fupd_other by auto. reflexivity. }
  constructor.
  - intros s H. unfold rt_destroy_index_space in H. unfold bind at 1 in H.
    destruct (l_kind s o); try discriminate. unfold bind in H. destruct (rt_drop o s) as [u s1| |] eqn:D; try discriminate.
    apply (drop_noabort _ _ D).
  - intros s a s' H. apply (S _ _ _ H).
  - intros s a s' H. apply (S _ _ _ H).
  - intros s a s' H P p q k Hp Hk. destruct (S _ _ _ H) as (K & A & Kx & N & R). unfold alive in *. rewrite Kx in *. rewrite R in *.
    assert (Ap : l_refs s p <> 0).
    { destruct (Nat.eq_dec p o); [subst; lia|]. destruct (is_part_of o (l_kind s p) && (l_refs s o =? 1)); auto. }
    destruct (P p q k Ap Hk) as [Aq Kq]. split; [|exact Kq].
    destruct (Nat.eq_dec q o) as [->|ne].
    + destruct (Nat.eq_dec p o) as [->|np]; [congruence|]. rewrite Hk in Hp. cbn in Hp. rewrite Nat.eqb_refl in Hp. cbn [andb] in Hp.
      destruct (Nat.eqb_spec (l_refs s o) 1); lia.
    + rewrite Kq. cbn. exact Aq.
  - intros s a s' x H. destruct (S _ _ _ H) as (K & A & Kx & N & R). rewrite R. unfold alive in A. cnt_simp.
    destruct (Nat.eq_dec x o), (Nat.eq_dec o x); subst; try (left; lia); try congruence.
    destruct (is_part_of o (l_kind s x)) eqn:e; cbn [andb]; [|left; lia].
    apply is_part_of_spec in e. destruct e as [c e]. destruct (l_refs s o =? 1); [right; split; eauto|left; lia].
  - intros s a s' x H NP. destruct (S _ _ _ H) as (K & A & Kx & N & R). rewrite R. unfold alive in A. cnt_simp.
    destruct (Nat.eq_dec x o), (Nat.eq_dec o x); subst; try lia; try congruence.
    destruct (is_part_of o (l_kind s x)) eqn:e; cbn [andb]; [|lia].
    apply is_part_of_spec in e. destruct e as [c e]. exfalso. eapply NP; eauto.
Qed.

Lemma drops_vec v : drops (vec_dtor v) (vec_refs v).
Proof.
  eapply drops_conv; [|unfold vec_dtor; apply drops_bind; [apply drops_part|intros _]; apply drops_bind; [apply drops_space|intros _];
    apply drops_bind; [apply drops_region|intros _]; apply drops_bind; [apply drops_fields|intros _]; apply drops_space].
  unfold vec_refs. ceq.
Qed.
Lemma drops_unshare r : drops (unshare_region r) (region_refs r).
Proof.
  eapply drops_conv; [|unfold unshare_region; apply drops_bind; [apply drops_region|intros _];
    apply drops_bind; [apply drops_fields|intros _]; apply drops_space].
  unfold region_refs. ceq.
Qed.
Lemma drops_mat m : drops (mat_dtor m) (mat_refs m).
Proof. destruct m; cbn [mat_dtor mat_refs]; [|apply drops_bind; [|intros _]]; apply drops_unshare. Qed.
Lemma flat_map_single {A} (f : A -> nat) l : flat_map (fun a => [f a]) l = map f l.
Proof. induction l; cbn; congruence. Qed.
Lemma drops_planner p : drops (planner_dtor p) (planner_refs p).
Proof.
  eapply drops_conv with (L := flat_map (fun e => [pm_kpart e; pm_ghost e]) (p_mats p) ++ flat_map (fun r => [rg_id r]) (p_wregions p)
    ++ (match p_wfields p with None => [] | Some f => [f] end) ++ flat_map (fun o => [o]) (p_parts p) ++ flat_map (fun o => [o]) (p_spaces p)
    ++ flat_map (flat_map vec_refs) (p_work p) ++ flat_map vec_refs (p_rhs p) ++ flat_map vec_refs (p_sol p)).
  - rewrite (flat_map_single rg_id), !(flat_map_single (fun o => o)), !map_id. unfold planner_refs. ceq.
  - unfold planner_dtor.
    apply drops_bind; [|intros _].
    { apply drops_iterM. intros e. change [pm_kpart e; pm_ghost e] with ([pm_kpart e] ++ [pm_ghost e]).
      apply drops_bind; [apply drops_part|intros _; apply drops_part]. }
    apply drops_bind; [apply drops_iterM; intros; apply drops_region|intros _].
    apply drops_bind; [destruct (p_wfields p); [apply drops_fields|apply drops_ret]|intros _].
    apply drops_bind; [apply drops_iterM; intros; apply drops_part|intros _].
    apply drops_bind; [apply drops_iterM; intros; apply drops_space|intros _].
    apply drops_bind; [apply drops_iterM; intros; apply drops_iterM; intros; apply drops_vec|intros _].
    apply drops_bind; [apply drops_iterM; intros; apply drops_vec|intros _].
    apply drops_iterM; intros; apply drops_vec.
Qed.
Lemma drops_dtor x : drops (dtor x) (obj_refs x).
Proof. destruct x; [apply drops_vec|apply drops_mat|apply drops_planner]. Qed.

(** A destructor that releases a reference to a dead object is illegal. *)
Lemma drops_dead {A} (m : rt A) L s o : drops m L -> In o L -> l_refs s o = 0 -> (forall q k, l_kind s o <> OPart q k) -> m s = RIllegal.
Proof.
  intros D H Z K. destruct (m s) as [a s'| |] eqn:e; auto.
  - pose proof (d_eq D _ _ e K). rewrite cnt_In in H. lia.
  - destruct (d_noabort D _ e).
Qed.
Lemma drops_refs_le {A} (m : rt A) L s a s' o : drops m L -> m s = ROk a s' -> l_refs s' o <= l_refs s o.
Proof. intros D e. destruct (d_le D _ o e) as [H|[_ H]]; lia. Qed.

(** Destroying a planner one of whose kernel partitions is already gone is illegal. *)
Lemma planner_dtor_dead p e s : In e (p_mats p) -> l_refs s (pm_kpart e) = 0 -> planner_dtor p s = RIllegal.
Proof.
  intros He Z. unfold planner_dtor, bind at 1.
  assert (H : iterM (fun e => rt_destroy_index_partition (pm_kpart e) ;; rt_destroy_index_partition (pm_ghost e)) (p_mats p) s = RIllegal).
  { revert s Z. induction (p_mats p) as [|e' l IH]; [destruct He|]. intros s Z. cbn [iterM].
    set (f := fun e : pmat => rt_destroy_index_partition (pm_kpart e) ;; rt_destroy_index_partition (pm_ghost e)) in *.
    assert (D : drops (f e') ([pm_kpart e'] ++ [pm_ghost e'])).
    { apply drops_bind; [apply drops_part|intros _; apply drops_part]. }
    change (match f e' s with ROk _ s' => iterM f l s' | RIllegal => RIllegal | RAbort => RAbort end = RIllegal).
    destruct He as [->|He].
    - unfold f, rt_destroy_index_partition, rt_drop, bind, need.
      replace (aliveb s (pm_kpart e)) with false by (unfold aliveb; rewrite Z; reflexivity).
      destruct (l_kind s (pm_kpart e)); cbn; unfold aliveb; rewrite ?Z; reflexivity.
    - destruct (f e' s) as [u s1| |] eqn:E; auto.
      + apply IH; auto. pose proof (drops_refs_le _ (pm_kpart e) D E). lia.
      + destruct (d_noabort D _ E). }
  rewrite H. reflexivity.
Qed.
