(** OwnershipFacts: a small program logic for reference counts, and the triples of every modelled
    constructor, destructor and function. *)
Require Import List Arith Bool Lia.
From Verif Require Import Ownership OwnershipSpec.
Import ListNotations.
Set Implicit Arguments.

Lemma cnt_cons a l x : cnt (a :: l) x = (if Nat.eq_dec a x then 1 else 0) + cnt l x.
Proof. unfold cnt; cbn. destruct (Nat.eq_dec a x); reflexivity. Qed.
Lemma cnt_nil x : cnt [] x = 0. Proof. reflexivity. Qed.
Lemma cnt_app l1 l2 x : cnt (l1 ++ l2) x = cnt l1 x + cnt l2 x.
Proof. apply count_occ_app. Qed.
Lemma cnt_In l x : In x l <-> 0 < cnt l x.
Proof. unfold cnt. rewrite (count_occ_In Nat.eq_dec). lia. Qed.

Ltac cnt_simp := repeat first [rewrite cnt_app in * | rewrite cnt_cons in * | rewrite cnt_nil in *].

(** Same multiset of references. *)
Definition ceq (l1 l2 : list nat) : Prop := forall x, cnt l1 x = cnt l2 x.
Lemma ceq_refl l : ceq l l. Proof. intro; reflexivity. Qed.
Lemma ceq_In l1 l2 x : ceq l1 l2 -> In x l1 -> In x l2.
Proof. intros H. rewrite !cnt_In, H. auto. Qed.
Ltac ceq := let x := fresh "x" in intro x; cnt_simp; cbn [flat_map map]; cnt_simp; lia.

(** The runtime is consistent with references [U] (may be stale) and [E] (never stale). *)
Record WF (s : lstate) (U E : list nat) : Prop := {
  wf_lt : forall o, alive s o -> o < l_next s;
  wf_U : forall o, In o U -> o < l_next s;
  wf_cnt : forall o, alive s o -> l_refs s o = cnt U o + cnt E o;
  wf_E : forall o, In o E -> alive s o;
  wf_par : forall p q k, alive s p -> l_kind s p = OPart q k -> alive s q /\ l_kind s q = OSpace;
  wf_stale : forall o, In o U ->
    alive s o \/ exists q k, l_kind s o = OPart q k /\ q < l_next s /\ ~ alive s q
}.

Arguments wf_lt {s U E} _ o _.
Arguments wf_U {s U E} _ o _.
Arguments wf_cnt {s U E} _ o _.
Arguments wf_E {s U E} _ o _.
Arguments wf_par {s U E} _ [p q k] _ _.
Arguments wf_stale {s U E} _ o _.

Lemma WF_ceq s U E E' : ceq E E' -> WF s U E -> WF s U E'.
Proof.
  intros H [A B C D F G]. constructor; auto.
  - intros o Ho. rewrite (C o Ho), (H o). reflexivity.
  - intros o Ho. apply D. rewrite cnt_In in *. rewrite (H o). exact Ho.
Qed.

Lemma WF_ceqU s U U' E : ceq U U' -> WF s U E -> WF s U' E.
Proof.
  intros H [A B C D F G].
  assert (I : forall o, In o U' -> In o U) by (intros o; rewrite !cnt_In, (H o); auto).
  constructor; auto.
  intros o Ho. rewrite (C o Ho), (H o). reflexivity.
Qed.
(** A reference that is not needed any more may be handed to somebody else. *)
Lemma WF_move s U E o : WF s U (o :: E) -> WF s (o :: U) E.
Proof.
  intros [A B C D F G]. constructor; auto.
  - intros x [<-|Hx]; auto. apply A, D. cbn; auto.
  - intros x Hx. rewrite (C x Hx). cnt_simp. lia.
  - intros x Hx. apply D. cbn; auto.
  - intros x [<-|Hx]; auto. left. apply D. cbn; auto.
Qed.

Definition kext (s s' : lstate) : Prop :=
  l_next s <= l_next s' /\ forall o, o < l_next s -> l_kind s' o = l_kind s o.
Definition grow (s s' : lstate) : Prop := kext s s' /\ forall o, alive s o -> alive s' o.
Lemma kext_refl s : kext s s. Proof. split; auto. Qed.
Lemma kext_trans s1 s2 s3 : kext s1 s2 -> kext s2 s3 -> kext s1 s3.
Proof. intros [A B] [C D]. split; [lia|]. intros o Ho. rewrite D, B; auto; lia. Qed.
Lemma grow_refl s : grow s s. Proof. split; auto using kext_refl. Qed.
Lemma grow_trans s1 s2 s3 : grow s1 s2 -> grow s2 s3 -> grow s1 s3.
Proof. intros [A B] [C D]. split; eauto using kext_trans. Qed.

(** Every partition in [E] has its parent in [E]. *)
Definition closed (s : lstate) (E : list nat) : Prop :=
  forall p q k, In p E -> l_kind s p = OPart q k -> In q E.

Lemma closed_kext s s' U E : kext s s' -> WF s U E -> closed s E -> closed s' E.
Proof.
  intros [_ K] W H p q k Hp Hk. eapply H; [exact Hp|]. rewrite <- K; [exact Hk|].
  apply (wf_lt W), (wf_E W), Hp.
Qed.
Lemma closed_ceq s E E' : ceq E E' -> closed s E -> closed s E'.
Proof.
  intros H C p q k Hp Hk. eapply ceq_In; [exact H|]. eapply C; [|exact Hk].
  eapply ceq_In; [|exact Hp]. intro x; symmetry; apply H.
Qed.
Lemma closed_cons s o E : (forall q k, l_kind s o = OPart q k -> In q E) -> closed s E -> closed s (o :: E).
Proof.
  intros H C p q k [->|Hp] Hk.
  - right. eapply H, Hk.
  - right. eapply C; eauto.
Qed.
Lemma closed_app s E1 E2 : closed s E1 -> closed s E2 -> closed s (E1 ++ E2).
Proof.
  intros A B p q k Hp Hk. apply in_app_iff in Hp. apply in_app_iff. destruct Hp; eauto.
Qed.

(** Weakest precondition: no illegal call; a failed assert ends the program. *)
Definition wp {A} (m : rt A) (s : lstate) (Q : A -> lstate -> Prop) : Prop :=
  match m s with ROk a s' => Q a s' | RIllegal => False | RAbort => True end.

Lemma wp_ret {A} (a : A) s (Q : A -> lstate -> Prop) : Q a s -> wp (ret a) s Q.
Proof. auto. Qed.
Lemma wp_bind {A B} (m : rt A) (f : A -> rt B) s Q :
  wp m s (fun a s' => wp (f a) s' Q) -> wp (bind m f) s Q.
Proof. unfold wp, bind. destruct (m s); auto. Qed.
Lemma wp_mono {A} (m : rt A) s (Q Q' : A -> lstate -> Prop) :
  wp m s Q -> (forall a s', Q a s' -> Q' a s') -> wp m s Q'.
Proof. unfold wp. destruct (m s); auto. Qed.
Lemma wp_assert b s (Q : unit -> lstate -> Prop) : (b = true -> Q tt s) -> wp (assert_ b) s Q.
Proof. unfold wp, assert_. destruct b; auto. Qed.

Lemma aliveb_true s o : aliveb s o = true <-> alive s o.
Proof. unfold aliveb, alive. rewrite negb_true_iff, Nat.eqb_neq. tauto. Qed.
Lemma aliveb_false s o : aliveb s o = false <-> ~ alive s o.
Proof. unfold aliveb, alive. rewrite negb_false_iff, Nat.eqb_eq. lia. Qed.

Lemma wp_need o s (Q : unit -> lstate -> Prop) : alive s o -> Q tt s -> wp (need o) s Q.
Proof. intros H. unfold wp, need. apply aliveb_true in H. rewrite H. auto. Qed.

Lemma fupd_same {A} (f : nat -> A) o a : fupd f o a o = a.
Proof. unfold fupd. rewrite Nat.eqb_refl. reflexivity. Qed.
Lemma fupd_other {A} (f : nat -> A) o a x : x <> o -> fupd f o a x = f x.
Proof. intros H. unfold fupd. apply Nat.eqb_neq in H. rewrite H. reflexivity. Qed.

Lemma wp_create k s U E (Q : nat -> lstate -> Prop) :
  WF s U E ->
  (forall q c, k = OPart q c -> alive s q /\ l_kind s q = OSpace) ->
  (forall o s', grow s s' -> o = l_next s -> l_next s' = S (l_next s) -> l_kind s' o = k ->
     l_refs s' o = 1 -> (forall x, x <> o -> l_refs s' x = l_refs s x) -> WF s' U (o :: E) -> Q o s') ->
  wp (rt_create k) s Q.
Proof.
  intros W Hk HQ. unfold wp, rt_create.
  assert (FK : forall x, x < l_next s -> fupd (l_kind s) (l_next s) k x = l_kind s x) by
    (intros; apply fupd_other; lia).
  assert (FR : forall x, x <> l_next s -> fupd (l_refs s) (l_next s) 1 x = l_refs s x) by
    (intros; apply fupd_other; lia).
  assert (DN : l_refs s (l_next s) = 0).
  { destruct (Nat.eq_dec (l_refs s (l_next s)) 0) as [e|e]; auto.
    pose proof (wf_lt W _ e). lia. }
  apply HQ; cbn; auto using fupd_same.
  - split.
    + split; cbn; auto.
    + unfold alive; cbn. intros o Ho. rewrite FR; auto. intros ->. congruence.
  - constructor; unfold alive; cbn.
    + intros o Ho. destruct (Nat.eq_dec o (l_next s)); [lia|]. rewrite FR in Ho by auto.
      pose proof (wf_lt W _ Ho). lia.
    + intros o Ho. pose proof (wf_U W _ Ho). lia.
    + intros o Ho. cnt_simp. destruct (Nat.eq_dec (l_next s) o) as [<-|n].
      * rewrite fupd_same.
        assert (cnt U (l_next s) = 0).
        { destruct (cnt U (l_next s)) eqn:e; auto.
          assert (In (l_next s) U) by (rewrite cnt_In; lia). pose proof (wf_U W _ H). lia. }
        assert (cnt E (l_next s) = 0).
        { destruct (cnt E (l_next s)) eqn:e; auto.
          assert (In (l_next s) E) by (rewrite cnt_In; lia). pose proof (wf_lt W _ (wf_E W _ H0)). lia. }
        lia.
      * rewrite FR in * by auto. rewrite (wf_cnt W o Ho). lia.
    + intros o [<-|Ho]; [rewrite fupd_same; lia|].
      pose proof (wf_E W _ Ho) as Ha. pose proof (wf_lt W _ Ha). rewrite FR by lia. exact Ha.
    + intros p q c Hp Hc. destruct (Nat.eq_dec p (l_next s)) as [->|n].
      * rewrite fupd_same in Hc. destruct (Hk q c Hc) as [H1 H2].
        pose proof (wf_lt W _ H1). rewrite FR, FK by lia. split; auto.
      * rewrite FR in Hp by auto. pose proof (wf_lt W _ Hp).
        rewrite FK in Hc by lia. destruct (wf_par W Hp Hc) as [H1 H2].
        pose proof (wf_lt W _ H1). rewrite FR, FK by lia. split; auto.
    + intros o Ho. pose proof (wf_U W _ Ho).
      destruct (wf_stale W _ Ho) as [A|(q & c & A1 & A2 & A3)].
      * left. rewrite FR by lia. exact A.
      * right. exists q, c. rewrite FK, FR by lia. auto.
Qed.

Lemma wp_share o s U E (Q : unit -> lstate -> Prop) :
  WF s U E -> alive s o ->
  (forall s', grow s s' -> l_next s' = l_next s -> WF s' U (o :: E) -> Q tt s') ->
  wp (rt_share o) s Q.
Proof.
  intros W Ho HQ. apply wp_bind, wp_need; auto. unfold wp.
  assert (R : forall x, fupd (l_refs s) o (S (l_refs s o)) x = (if Nat.eq_dec o x then 1 else 0) + l_refs s x).
  { intros x. destruct (Nat.eq_dec o x) as [<-|n]; [rewrite fupd_same|rewrite fupd_other]; auto. }
  assert (AL : forall x, fupd (l_refs s) o (S (l_refs s o)) x <> 0 <-> alive s x).
  { intros x. rewrite R. unfold alive in *. destruct (Nat.eq_dec o x) as [<-|n]; lia. }
  apply HQ; auto.
  - split; [split; auto|]. unfold alive at 2; cbn. intros x Hx. apply AL, Hx.
  - constructor; unfold alive; cbn.
    + intros x Hx. apply AL in Hx. apply (wf_lt W _ Hx).
    + apply (wf_U W).
    + intros x Hx. apply AL in Hx. rewrite R, (wf_cnt W _ Hx). cnt_simp. lia.
    + intros x [<-|Hx]; apply AL; auto. apply (wf_E W), Hx.
    + intros p q k Hp Hk. apply AL in Hp. destruct (wf_par W Hp Hk) as [H1 H2].
      split; auto. apply AL, H1.
    + intros x Hx. destruct (wf_stale W _ Hx) as [A|(q & c & A1 & A2 & A3)].
      * left. apply AL, A.
      * right. exists q, c. rewrite AL. auto.
Qed.

(** Dropping one reference, taken from [U] or from [E]. *)
Definition takes (o : nat) (U E U' E' : list nat) : Prop :=
  (forall x, cnt U x + cnt E x = (if Nat.eq_dec o x then 1 else 0) + cnt U' x + cnt E' x) /\
  (forall x, cnt U' x <= cnt U x) /\ (forall x, cnt E' x <= cnt E x).
Lemma takes_E o U E : takes o U (o :: E) U E.
Proof. repeat split; intro x; cnt_simp; lia. Qed.
Lemma takes_U o U E : takes o (o :: U) E U E.
Proof. repeat split; intro x; cnt_simp; lia. Qed.

Lemma wp_drop o s U E U' E' (Q : unit -> lstate -> Prop) :
  WF s U E -> alive s o -> l_kind s o <> OSpace -> takes o U E U' E' ->
  (forall s', kext s s' -> l_next s' = l_next s -> l_kind s' = l_kind s -> WF s' U' E' -> Q tt s') ->
  wp (rt_drop o) s Q.
Proof.
  intros W Ho Hk [T1 [T2 T3]] HQ. apply wp_bind, wp_need; auto. unfold wp.
  assert (R : forall x, l_refs s x = (if Nat.eq_dec o x then 1 else 0) + fupd (l_refs s) o (l_refs s o - 1) x).
  { intros x. unfold alive in Ho. destruct (Nat.eq_dec o x) as [<-|n]; [rewrite fupd_same; lia|rewrite fupd_other; auto]. }
  assert (AL : forall x, fupd (l_refs s) o (l_refs s o - 1) x <> 0 -> alive s x).
  { intros x Hx. unfold alive. rewrite R. destruct (Nat.eq_dec o x); lia. }
  assert (CN : forall x, alive s x -> fupd (l_refs s) o (l_refs s o - 1) x = cnt U' x + cnt E' x).
  { intros x Hx. pose proof (wf_cnt W _ Hx) as C. rewrite R in C. specialize (T1 x). lia. }
  apply HQ; auto; [split; auto|].
  constructor; unfold alive; cbn.
  - intros x Hx. apply (wf_lt W), AL, Hx.
  - intros x Hx. apply (wf_U W). rewrite cnt_In in *. specialize (T2 x). lia.
  - intros x Hx. apply CN, AL, Hx.
  - intros x Hx. assert (Hx' : In x E) by (rewrite cnt_In in *; specialize (T3 x); lia).
    pose proof (wf_E W _ Hx') as A. rewrite (CN _ A). rewrite cnt_In in Hx. lia.
  - intros p q k Hp Hc. destruct (wf_par W (AL _ Hp) Hc) as [H1 H2]. split; auto.
    rewrite fupd_other by congruence. exact H1.
  - intros x Hx. assert (Hx' : In x U) by (rewrite cnt_In in *; specialize (T2 x); lia).
    destruct (wf_stale W _ Hx') as [A|(q & c & A1 & A2 & A3)].
    + left. rewrite (CN _ A). rewrite cnt_In in Hx. lia.
    + right. exists q, c. split; [auto|split; [auto|]]. intros Z. apply A3, AL, Z.
Qed.

Lemma wp_destroy_space o s U E U' E' (Q : unit -> lstate -> Prop) :
  WF s U E -> alive s o -> l_kind s o = OSpace -> takes o U E U' E' -> closed s E' ->
  (forall s', kext s s' -> l_next s' = l_next s -> l_kind s' = l_kind s -> WF s' U' E' -> Q tt s') ->
  wp (rt_destroy_index_space o) s Q.
Proof.
  intros W Ho Hk [T1 [T2 T3]] Cl HQ. unfold rt_destroy_index_space.
  apply wp_bind. unfold wp at 1. rewrite Hk. apply wp_bind, wp_bind, wp_need; auto. unfold wp.
  assert (R : forall x, l_refs s x = (if Nat.eq_dec o x then 1 else 0) + fupd (l_refs s) o (l_refs s o - 1) x).
  { intros x. unfold alive in Ho. destruct (Nat.eq_dec o x) as [<-|n]; [rewrite fupd_same; lia|rewrite fupd_other; auto]. }
  assert (AL : forall x, fupd (l_refs s) o (l_refs s o - 1) x <> 0 -> alive s x).
  { intros x Hx. unfold alive. rewrite R. destruct (Nat.eq_dec o x); lia. }
  assert (CN : forall x, alive s x -> fupd (l_refs s) o (l_refs s o - 1) x = cnt U' x + cnt E' x).
  { intros x Hx. pose proof (wf_cnt W _ Hx) as C. rewrite R in C. specialize (T1 x). lia. }
  assert (IE : forall x, In x E' -> alive s x /\ fupd (l_refs s) o (l_refs s o - 1) x <> 0).
  { intros x Hx. assert (Hx' : In x E) by (rewrite cnt_In in *; specialize (T3 x); lia).
    pose proof (wf_E W _ Hx') as A. split; auto. rewrite (CN _ A). rewrite cnt_In in Hx. lia. }
  assert (IU : forall x, In x U' -> x < l_next s).
  { intros x Hx. apply (wf_U W). rewrite cnt_In in *. specialize (T2 x). lia. }
  set (s1 := LState (l_next s) (l_kind s) (fupd (l_refs s) o (l_refs s o - 1))).
  destruct (aliveb s1 o) eqn:D.
  - apply aliveb_true in D. apply HQ; auto; [split; auto|].
    constructor; unfold alive; cbn; auto.
    + intros x Hx. apply (wf_lt W), AL, Hx.
    + intros x Hx. apply IE, Hx.
    + intros p q k Hp Hc. destruct (wf_par W (AL _ Hp) Hc) as [H1 H2]. split; auto.
      destruct (Nat.eq_dec o q) as [<-|n]; [exact D|]. rewrite fupd_other by congruence. exact H1.
    + intros x Hx. assert (Hx' : In x U) by (rewrite cnt_In in *; specialize (T2 x); lia).
      destruct (wf_stale W _ Hx') as [A|(q & c & A1 & A2 & A3)].
      * left. rewrite (CN _ A). rewrite cnt_In in Hx. lia.
      * right. exists q, c. split; [auto|split; [auto|]]. intros Z. apply A3, AL, Z.
  - apply aliveb_false in D. unfold alive in D; cbn in D.
    assert (Z0 : fupd (l_refs s) o (l_refs s o - 1) o = 0) by lia. clear D.
    assert (NC : forall x, is_part_of o (l_kind s x) = true -> ~ In x E').
    { intros x Hx Hin. destruct (l_kind s x) as [| | |q k] eqn:e; cbn in Hx; try discriminate.
      apply Nat.eqb_eq in Hx. subst q. pose proof (Cl _ _ _ Hin e) as Hq. apply IE in Hq. lia. }
    apply HQ; auto; [split; auto|].
    constructor; unfold alive; cbn; auto.
    + intros x Hx. destruct (is_part_of o (l_kind s x)); [congruence|]. apply (wf_lt W), AL, Hx.
    + intros x Hx. destruct (is_part_of o (l_kind s x)); [congruence|]. apply CN, AL, Hx.
    + intros x Hx. destruct (is_part_of o (l_kind s x)) eqn:e; [exfalso; eapply NC; eauto|].
      apply IE, Hx.
    + intros p q k Hp Hc. destruct (is_part_of o (l_kind s p)) eqn:e; [congruence|].
      destruct (wf_par W (AL _ Hp) Hc) as [H1 H2]. split; auto. rewrite H2. cbn.
      rewrite Hc in e. cbn in e. apply Nat.eqb_neq in e. rewrite fupd_other by congruence. exact H1.
    + intros x Hx. assert (Hx' : In x U) by (rewrite cnt_In in *; specialize (T2 x); lia).
      destruct (wf_stale W _ Hx') as [A|(q & c & A1 & A2 & A3)].
      * destruct (is_part_of o (l_kind s x)) eqn:e.
        -- right. destruct (l_kind s x) as [| | |q c] eqn:ek; cbn in e; try discriminate.
           apply Nat.eqb_eq in e. subst q. exists o, c. split; [auto|].
           split; [apply (wf_lt W), Ho|]. rewrite Hk. cbn. lia.
        -- left. rewrite (CN _ A). rewrite cnt_In in Hx. lia.
      * right. exists q, c. split; [auto|split; [auto|]]. intros Z. apply A3.
        destruct (is_part_of o (l_kind s q)); [congruence|]. apply AL, Z.
Qed.

(** Derived rules for the runtime calls. *)
Lemma wp_destroy_fields o s U E U' E' (Q : unit -> lstate -> Prop) :
  WF s U E -> alive s o -> l_kind s o = OFields -> takes o U E U' E' ->
  (forall s', kext s s' -> l_next s' = l_next s -> l_kind s' = l_kind s -> WF s' U' E' -> Q tt s') ->
  wp (rt_destroy_field_space o) s Q.
Proof.
  intros W A K T H. apply wp_bind. unfold wp at 1. rewrite K.
  eapply wp_drop; eauto. congruence.
Qed.
Lemma wp_destroy_region r s U E U' E' i f (Q : unit -> lstate -> Prop) :
  WF s U E -> alive s (rg_id r) -> l_kind s (rg_id r) = ORegion i f -> takes (rg_id r) U E U' E' ->
  (forall s', kext s s' -> l_next s' = l_next s -> l_kind s' = l_kind s -> WF s' U' E' -> Q tt s') ->
  wp (rt_destroy_logical_region r) s Q.
Proof.
  intros W A K T H. apply wp_bind. unfold wp at 1. rewrite K.
  eapply wp_drop; eauto. congruence.
Qed.
Lemma wp_destroy_partition o s U E U' E' q k (Q : unit -> lstate -> Prop) :
  WF s U E -> alive s o -> l_kind s o = OPart q k -> takes o U E U' E' ->
  (forall s', kext s s' -> l_next s' = l_next s -> l_kind s' = l_kind s -> WF s' U' E' -> Q tt s') ->
  wp (rt_destroy_index_partition o) s Q.
Proof.
  intros W A K T H. apply wp_bind. unfold wp at 1. rewrite K.
  eapply wp_drop; eauto. congruence.
Qed.

Lemma wp_create_region is fs s U E (Q : region -> lstate -> Prop) :
  WF s U E -> alive s is -> alive s fs ->
  (forall r s', grow s s' -> rg_is r = is -> rg_fs r = fs -> rg_id r = l_next s ->
     l_next s' = S (l_next s) -> l_kind s' (rg_id r) = ORegion is fs ->
     l_refs s' (rg_id r) = 1 -> (forall x, x <> rg_id r -> l_refs s' x = l_refs s x) ->
     WF s' U (rg_id r :: E) -> Q r s') ->
  wp (rt_create_logical_region is fs) s Q.
Proof.
  intros W A B H. apply wp_bind, wp_need; auto. apply wp_bind, wp_need; auto.
  apply wp_bind. eapply wp_create; eauto; [congruence|].
  intros. apply wp_ret. eapply H; eauto.
Qed.
Lemma wp_create_partition q k s U E (Q : nat -> lstate -> Prop) :
  WF s U E -> alive s q -> l_kind s q = OSpace -> alive s k ->
  (forall o s', grow s s' -> o = l_next s -> l_next s' = S (l_next s) -> l_kind s' o = OPart q k ->
     l_refs s' o = 1 -> (forall x, x <> o -> l_refs s' x = l_refs s x) -> WF s' U (o :: E) -> Q o s') ->
  wp (rt_create_partition q k) s Q.
Proof.
  intros W A B C H. apply wp_bind, wp_need; auto. apply wp_bind, wp_need; auto.
  apply wp_bind. unfold wp at 1. rewrite B.
  eapply wp_create; eauto. intros q' c' e. injection e as <- <-. auto.
Qed.
Lemma wp_parent p s q k (Q : nat -> lstate -> Prop) :
  alive s p -> l_kind s p = OPart q k -> Q q s -> wp (rt_parent_space p) s Q.
Proof. intros A K H. apply wp_bind, wp_need; auto. unfold wp. rewrite K. exact H. Qed.
Lemma wp_color p s q k (Q : nat -> lstate -> Prop) :
  alive s p -> l_kind s p = OPart q k -> Q k s -> wp (rt_color_space p) s Q.
Proof. intros A K H. apply wp_bind, wp_need; auto. unfold wp. rewrite K. exact H. Qed.
Lemma wp_lpart r p s (Q : region * nat -> lstate -> Prop) :
  alive s (rg_id r) -> alive s p -> Q (r, p) s -> wp (rt_logical_partition r p) s Q.
Proof. intros A B H. apply wp_bind, wp_need; auto. apply wp_bind, wp_need; auto. Qed.

(** ** Well-formed handles: the members have the kinds their types say. *)
Definition region_ok (s : lstate) (r : region) : Prop :=
  l_kind s (rg_id r) = ORegion (rg_is r) (rg_fs r) /\ l_kind s (rg_is r) = OSpace /\ l_kind s (rg_fs r) = OFields.
Definition vec_ok (s : lstate) (v : vec) : Prop :=
  l_kind s (v_space v) = OSpace /\ l_kind s (v_fields v) = OFields /\
  l_kind s (rg_id (v_region v)) = ORegion (v_space v) (v_fields v) /\
  rg_is (v_region v) = v_space v /\ rg_fs (v_region v) = v_fields v /\
  l_kind s (v_color v) = OSpace /\ l_kind s (v_part v) = OPart (v_space v) (v_color v).
Definition mat_ok (s : lstate) (m : mat) : Prop :=
  match m with MCOO k => region_ok s k | MCSR k r => region_ok s k /\ region_ok s r end.

Lemma vec_refs_bound s U E v F : WF s U E -> ceq E (vec_refs v ++ F) ->
  v_space v < l_next s /\ v_fields v < l_next s /\ rg_id (v_region v) < l_next s /\
  v_color v < l_next s /\ v_part v < l_next s.
Proof.
  intros W C.
  assert (H : forall x, In x (vec_refs v) -> x < l_next s).
  { intros x Hx. apply (wf_lt W), (wf_E W). eapply ceq_In; [intro; symmetry; apply C|].
    apply in_app_iff. auto. }
  unfold vec_refs in H. cbn [In] in H. repeat split; apply H; tauto.
Qed.

Lemma vec_ok_kext s s' v : kext s s' ->
  (forall x, In x (vec_refs v) -> x < l_next s) -> vec_ok s v -> vec_ok s' v.
Proof.
  intros [_ K] B (A1 & A2 & A3 & A4 & A5 & A6 & A7). unfold vec_refs in B. cbn [In] in B.
  unfold vec_ok. rewrite !K by (apply B; tauto). tauto.
Qed.
Lemma region_ok_kext s s' r : kext s s' ->
  (forall x, In x (region_refs r) -> x < l_next s) -> region_ok s r -> region_ok s' r.
Proof.
  intros [_ K] B A. unfold region_refs in B. cbn [In] in B.
  unfold region_ok. rewrite !K by (apply B; tauto). exact A.
Qed.
Lemma mat_ok_kext s s' m : kext s s' ->
  (forall x, In x (mat_refs m) -> x < l_next s) -> mat_ok s m -> mat_ok s' m.
Proof.
  intros K B A. destruct m as [k|k r]; cbn in *.
  - eapply region_ok_kext; eauto.
  - destruct A as [A1 A2]. split; eapply region_ok_kext; eauto; intros x Hx; cbn in B. apply B. rewrite ?in_app_iff. cbn [region_refs In] in *. tauto.
Qed.

Lemma vec_closed s v : vec_ok s v -> closed s (vec_refs v).
Proof.
  intros (A1 & A2 & A3 & A4 & A5 & A6 & A7) p q k Hp Hk. unfold vec_refs in *. cbn [In] in *.
  destruct Hp as [<-|[<-|[<-|[<-|[<-|[]]]]]]; try congruence. left. congruence.
Qed.
Lemma region_closed s r : region_ok s r -> closed s (region_refs r).
Proof.
  intros (A1 & A2 & A3) p q k Hp Hk. unfold region_refs in *. cbn [In] in *.
  destruct Hp as [<-|[<-|[<-|[]]]]; congruence.
Qed.
Lemma mat_closed s m : mat_ok s m -> closed s (mat_refs m).
Proof.
  destruct m; cbn [mat_ok mat_refs]; intros; [apply region_closed; auto|].
  destruct H. apply closed_app; apply region_closed; auto.
Qed.
Lemma vecs_closed s l : Forall (vec_ok s) l -> closed s (flat_map vec_refs l).
Proof.
  induction 1; cbn [flat_map]; [intros ? ? ? []|]. apply closed_app; auto using vec_closed.
Qed.

(** ** PartitionedVector *)

Ltac bnd := apply wp_bind.
Ltac al W := (apply (wf_E W); cbn [In]; tauto).
Ltac up := repeat match goal with h : grow _ ?t |- alive ?t _ => apply (proj2 h) end.

Lemma vec_ctor_partition_spec p s U E (Q : vec -> lstate -> Prop) :
  WF s U E -> live_partition s p ->
  (forall v s', grow s s' -> vec_ok s' v -> v_part v = p -> WF s' U (vec_refs v ++ E) -> Q v s') ->
  wp (vec_ctor_partition p) s Q.
Proof.
  intros W (Ap & q & k & Kp & Ak & Kk) HQ. unfold vec_ctor_partition.
  destruct (wf_par W Ap Kp) as [Aq Kq].
  pose proof (wf_lt W _ Ap) as Lp. pose proof (wf_lt W _ Aq) as Lq. pose proof (wf_lt W _ Ak) as Lk.
  bnd. eapply wp_parent; eauto.
  bnd. eapply wp_create; [exact W|congruence|]. intros fs s1 [[N1 K1] G1] E1 X1 Kf _ _ W1.
  bnd. eapply wp_create_region; [exact W1|auto|al W1|].
  intros r s2 [[N2 K2] G2] R1 R2 R3 X2 Kr _ _ W2.
  assert (Kp2 : l_kind s2 p = OPart q k) by (rewrite K2, K1 by lia; auto).
  bnd. eapply wp_color; eauto.
  bnd. eapply wp_lpart; [al W2|auto|].
  bnd. eapply wp_share; [exact W2|auto|]. intros s3 [[N3 K3] G3] X3 W3.
  bnd. eapply wp_share; [exact W3|auto|]. intros s4 [[N4 K4] G4] X4 W4.
  bnd. eapply wp_share; [exact W4|auto|]. intros s5 [[N5 K5] G5] X5 W5.
  apply wp_ret. apply HQ.
  - split; [split|]; [lia| |auto 8].
    intros o Ho. rewrite K5, K4, K3, K2, K1 by lia. reflexivity.
  - unfold vec_ok; cbn.
    repeat split; auto; rewrite K5, K4, K3 by lia; auto; rewrite K2 by lia; auto; rewrite K1 by lia; auto.
  - reflexivity.
  - eapply WF_ceq; [|exact W5]. unfold vec_refs. cbn [v_space v_fields v_region v_color v_part]. ceq.
Qed.

Lemma vec_ctor_logical_spec r p s U E (Q : vec -> lstate -> Prop) :
  WF s U E -> alive s (rg_id r) -> region_ok s r -> alive s (rg_fs r) -> alive s p ->
  (exists k, l_kind s p = OPart (rg_is r) k /\ alive s k /\ l_kind s k = OSpace) ->
  (forall v s', grow s s' -> l_next s' = l_next s -> vec_ok s' v -> v_part v = p -> v_region v = r ->
     WF s' U (vec_refs v ++ E) -> Q v s') ->
  wp (vec_ctor_logical (r, p)) s Q.
Proof.
  intros W Ar (Kr & Kis & Kfs) Afs Ap (k & Kp & Ak & Kk) HQ. unfold vec_ctor_logical. cbn [fst snd].
  destruct (wf_par W Ap Kp) as [Aq Kq].
  pose proof (wf_lt W _ Ap) as Lp. pose proof (wf_lt W _ Aq) as Lq. pose proof (wf_lt W _ Ak) as Lk.
  pose proof (wf_lt W _ Ar) as Lr. pose proof (wf_lt W _ Afs) as Lf.
  bnd. eapply wp_parent; eauto.
  bnd. eapply wp_color; eauto.
  bnd. eapply wp_share; [exact W|auto|]. intros s1 [[N1 K1] G1] X1 W1.
  bnd. eapply wp_share; [exact W1|auto|]. intros s2 [[N2 K2] G2] X2 W2.
  bnd. eapply wp_share; [exact W2|auto|]. intros s3 [[N3 K3] G3] X3 W3.
  bnd. eapply wp_share; [exact W3|auto|]. intros s4 [[N4 K4] G4] X4 W4.
  bnd. eapply wp_share; [exact W4|auto 8|]. intros s5 [[N5 K5] G5] X5 W5.
  apply wp_ret. apply HQ.
  - split; [split|]; [lia| |auto 8].
    intros o Ho. rewrite K5, K4, K3, K2, K1 by lia. reflexivity.
  - lia.
  - unfold vec_ok; cbn.
    repeat split; auto; rewrite K5, K4, K3, K2, K1 by lia; auto.
  - reflexivity.
  - reflexivity.
  - eapply WF_ceq; [|exact W5]. unfold vec_refs; cbn [v_space v_fields v_region v_color v_part]. ceq.
Qed.

Lemma vec_copy_spec v s U E (Q : vec -> lstate -> Prop) :
  WF s U E -> (forall x, In x (vec_refs v) -> alive s x) -> vec_ok s v ->
  (forall s', grow s s' -> l_next s' = l_next s -> vec_ok s' v -> WF s' U (vec_refs v ++ E) -> Q v s') ->
  wp (vec_copy v) s Q.
Proof.
  intros W A O HQ. unfold vec_copy.
  assert (A' := A). unfold vec_refs in A'. cbn [In] in A'.
  bnd. eapply wp_share; [exact W|apply A'; tauto|]. intros s1 g1 X1 W1. pose proof (proj2 g1).
  bnd. eapply wp_share; [exact W1|up; apply A'; tauto|]. intros s2 g2 X2 W2. pose proof (proj2 g2).
  bnd. eapply wp_share; [exact W2|up; apply A'; tauto|]. intros s3 g3 X3 W3. pose proof (proj2 g3).
  bnd. eapply wp_share; [exact W3|up; apply A'; tauto|]. intros s4 g4 X4 W4. pose proof (proj2 g4).
  bnd. eapply wp_share; [exact W4|up; apply A'; tauto|]. intros s5 g5 X5 W5.
  assert (g : grow s s5) by eauto using grow_trans.
  apply wp_ret. apply HQ; auto.
  - lia.
  - eapply vec_ok_kext; [apply g| |exact O]. intros x Hx. apply (wf_lt W), A, Hx.
  - eapply WF_ceq; [|exact W5]. unfold vec_refs. ceq.
Qed.

Lemma vec_dtor_spec v s U E (Q : unit -> lstate -> Prop) :
  WF s U (vec_refs v ++ E) -> vec_ok s v -> closed s E ->
  (forall s', kext s s' -> l_kind s' = l_kind s -> l_next s' = l_next s -> WF s' U E -> Q tt s') ->
  wp (vec_dtor v) s Q.
Proof.
  intros W (A1 & A2 & A3 & A4 & A5 & A6 & A7) C HQ. unfold vec_dtor.
  assert (W0 : WF s U (v_part v :: v_color v :: rg_id (v_region v) :: v_fields v :: v_space v :: E)).
  { eapply WF_ceq; [|exact W]. unfold vec_refs. ceq. }
  bnd. eapply wp_destroy_partition; [exact W0|al W0|eassumption|apply takes_E|]. intros s1 _ N1 K1 W1.
  bnd. eapply wp_destroy_space; [exact W1|al W1|congruence|apply takes_E| |].
  { repeat apply closed_cons; rewrite ?K1; try congruence. intros p q k. rewrite K1. apply C. }
  intros s2 _ N2 K2 W2.
  bnd. eapply wp_destroy_region; [exact W2|al W2|rewrite K2, K1; eassumption|apply takes_E|]. intros s3 _ N3 K3 W3.
  bnd. eapply wp_destroy_fields; [exact W3|al W3|congruence|apply takes_E|]. intros s4 _ N4 K4 W4.
  eapply wp_destroy_space; [exact W4|al W4|congruence|apply takes_E| |].
  { intros p q k. rewrite K4, K3, K2, K1. apply C. }
  intros s5 _ N5 K5 W5. apply HQ; auto; try congruence.
  split; [lia|]. intros. congruence.
Qed.

Lemma iter_vec_dtor_spec l : forall s U E (Q : unit -> lstate -> Prop),
  WF s U (flat_map vec_refs l ++ E) -> Forall (vec_ok s) l -> closed s E ->
  (forall s', kext s s' -> l_kind s' = l_kind s -> l_next s' = l_next s -> WF s' U E -> Q tt s') ->
  wp (iterM vec_dtor l) s Q.
Proof.
  induction l as [|v l IH]; intros s U E Q W O C HQ; cbn [iterM].
  - apply wp_ret, HQ; auto using kext_refl.
  - inversion O as [|? ? O1 O2]; subst. cbn [flat_map] in W. rewrite <- app_assoc in W.
    bnd. eapply vec_dtor_spec; [exact W|auto|apply closed_app; auto using vecs_closed|].
    intros s1 X1 K1 N1 W1. eapply IH; [exact W1| | |].
    + eapply Forall_impl; [|exact O2]. intros a. unfold vec_ok. rewrite K1. auto.
    + intros p q k. rewrite K1. apply C.
    + intros s2 X2 K2 N2 W2. apply HQ; auto; try congruence. eapply kext_trans; eauto.
Qed.
Lemma iter2_vec_dtor_spec l : forall s U E (Q : unit -> lstate -> Prop),
  WF s U (flat_map (flat_map vec_refs) l ++ E) -> Forall (Forall (vec_ok s)) l -> closed s E ->
  (forall s', kext s s' -> l_kind s' = l_kind s -> l_next s' = l_next s -> WF s' U E -> Q tt s') ->
  wp (iterM (iterM vec_dtor) l) s Q.
Proof.
  induction l as [|v l IH]; intros s U E Q W O C HQ; cbn [iterM].
  - apply wp_ret, HQ; auto using kext_refl.
  - inversion O as [|? ? O1 O2]; subst. cbn [flat_map] in W. rewrite <- app_assoc in W.
    bnd. eapply iter_vec_dtor_spec; [exact W|auto| |].
    { apply closed_app; auto. clear - O2. induction O2; cbn [flat_map]; [intros ? ? ? []|].
      apply closed_app; auto using vecs_closed. }
    intros s1 X1 K1 N1 W1. eapply IH; [exact W1| | |].
    + eapply Forall_impl; [|exact O2]. intros a. apply Forall_impl. intros b. unfold vec_ok. rewrite K1. auto.
    + intros p q k. rewrite K1. apply C.
    + intros s2 X2 K2 N2 W2. apply HQ; auto; try congruence. eapply kext_trans; eauto.
Qed.

Lemma map_vec_copy_spec l : forall s U E (Q : list vec -> lstate -> Prop),
  WF s U E -> (forall x, In x (flat_map vec_refs l) -> alive s x) -> Forall (vec_ok s) l ->
  (forall s', grow s s' -> l_next s' = l_next s -> Forall (vec_ok s') l -> WF s' U (flat_map vec_refs l ++ E) -> Q l s') ->
  wp (mapM vec_copy l) s Q.
Proof.
  induction l as [|v l IH]; intros s U E Q W A O HQ; cbn [mapM].
  - apply wp_ret, HQ; auto using grow_refl.
  - inversion O as [|? ? O1 O2]; subst. cbn [flat_map] in A.
    bnd. eapply vec_copy_spec; [exact W|intros; apply A, in_app_iff; auto|auto|].
    intros s1 g1 N1 V1 W1. bnd. eapply IH; [exact W1| | |].
    + intros x Hx. apply (proj2 g1), A, in_app_iff. auto.
    + rewrite Forall_forall in *. intros a Ha. eapply vec_ok_kext; [apply g1| |apply O2, Ha].
      intros x Hx. apply (wf_lt W), A, in_app_iff. right. apply in_flat_map. eauto.
    + intros s2 g2 N2 V2 W2. apply wp_ret. apply HQ.
      * eapply grow_trans; eauto.
      * lia.
      * constructor; auto. eapply vec_ok_kext; [apply g2| |exact V1].
        intros x Hx. rewrite N1. apply (wf_lt W), A, in_app_iff. auto.
      * eapply WF_ceq; [|exact W2]. cbn [flat_map]. ceq.
Qed.

(** ** Matrices *)
Lemma share_region_spec r s U E (Q : unit -> lstate -> Prop) :
  WF s U E -> live_region s r ->
  (forall s', grow s s' -> l_next s' = l_next s -> WF s' U (region_refs r ++ E) -> Q tt s') ->
  wp (share_region r) s Q.
Proof.
  intros W (A1 & A2 & A3 & A4 & A5 & A6) HQ. unfold share_region.
  bnd. eapply wp_share; [exact W|auto|]. intros s1 g1 X1 W1. pose proof (proj2 g1).
  bnd. eapply wp_share; [exact W1|up; auto|]. intros s2 g2 X2 W2. pose proof (proj2 g2).
  eapply wp_share; [exact W2|up; auto|]. intros s3 g3 X3 W3.
  apply HQ; [eauto using grow_trans|lia|].
  eapply WF_ceq; [|exact W3]. unfold region_refs. ceq.
Qed.
Lemma unshare_region_spec r s U E (Q : unit -> lstate -> Prop) :
  WF s U (region_refs r ++ E) -> region_ok s r -> closed s E ->
  (forall s', kext s s' -> l_kind s' = l_kind s -> l_next s' = l_next s -> WF s' U E -> Q tt s') ->
  wp (unshare_region r) s Q.
Proof.
  intros W (A1 & A2 & A3) C HQ. unfold unshare_region.
  assert (W0 : WF s U (rg_id r :: rg_fs r :: rg_is r :: E)).
  { eapply WF_ceq; [|exact W]. unfold region_refs. ceq. }
  bnd. eapply wp_destroy_region; [exact W0|al W0|eassumption|apply takes_E|]. intros s1 _ N1 K1 W1.
  bnd. eapply wp_destroy_fields; [exact W1|al W1|congruence|apply takes_E|]. intros s2 _ N2 K2 W2.
  eapply wp_destroy_space; [exact W2|al W2|congruence|apply takes_E| |].
  { intros p q k. rewrite K2, K1. apply C. }
  intros s3 _ N3 K3 W3. apply HQ; auto; try congruence.
  split; [lia|]. intros. congruence.
Qed.

Lemma live_region_grow s s' U E r : WF s U E -> grow s s' -> live_region s r -> live_region s' r.
Proof.
  intros W [[_ K] G] (A1 & A2 & A3 & A4 & A5 & A6). unfold live_region.
  rewrite !K by (apply (wf_lt W); auto). auto 10.
Qed.
Lemma live_region_ok s r : live_region s r -> region_ok s r.
Proof. unfold live_region, region_ok. tauto. Qed.

Lemma coo_ctor_spec k s U E (Q : mat -> lstate -> Prop) :
  WF s U E -> live_region s k ->
  (forall s', grow s s' -> l_next s' = l_next s -> mat_ok s' (MCOO k) -> WF s' U (mat_refs (MCOO k) ++ E) -> Q (MCOO k) s') ->
  wp (coo_ctor k) s Q.
Proof.
  intros W L HQ. unfold coo_ctor. bnd. eapply share_region_spec; eauto. intros s1 g1 N1 W1.
  apply wp_ret. apply HQ; auto. cbn. apply live_region_ok. eapply (live_region_grow W); eauto.
Qed.
Lemma csr_ctor_spec k r s U E (Q : mat -> lstate -> Prop) :
  WF s U E -> live_region s k -> live_region s r ->
  (forall s', grow s s' -> l_next s' = l_next s -> mat_ok s' (MCSR k r) -> WF s' U (mat_refs (MCSR k r) ++ E) -> Q (MCSR k r) s') ->
  wp (csr_ctor k r) s Q.
Proof.
  intros W L L' HQ. unfold csr_ctor. bnd. eapply share_region_spec; eauto. intros s1 g1 N1 W1.
  bnd. eapply share_region_spec; [exact W1|eapply (live_region_grow W); eauto|]. intros s2 g2 N2 W2.
  apply wp_ret. apply HQ; [eauto using grow_trans|lia| |].
  - cbn. split; apply live_region_ok; eapply (live_region_grow W); eauto using grow_trans.
  - eapply WF_ceq; [|exact W2]. unfold mat_refs. ceq.
Qed.

Lemma mat_live s U E m : WF s U E -> (forall x, In x (mat_refs m) -> alive s x) -> mat_ok s m ->
  live_region s (kernel_region m) /\ match m with MCOO _ => True | MCSR _ r => live_region s r end.
Proof.
  intros W A O. destruct m as [k|k r]; unfold mat_refs in A; cbn [mat_ok kernel_region] in *.
  - split; auto. destruct O as (A1 & A2 & A3). unfold live_region, region_refs in *. cbn in A. auto 20.
  - destruct O as [(A1 & A2 & A3) (B1 & B2 & B3)]. unfold live_region, region_refs in *. cbn in A. auto 20.
Qed.

Lemma mat_copy_spec m s U E (Q : mat -> lstate -> Prop) :
  WF s U E -> (forall x, In x (mat_refs m) -> alive s x) -> mat_ok s m ->
  (forall s', grow s s' -> l_next s' = l_next s -> mat_ok s' m -> WF s' U (mat_refs m ++ E) -> Q m s') ->
  wp (mat_copy m) s Q.
Proof.
  intros W A O HQ. destruct (mat_live m W A O) as [L L']. destruct m as [k|k r].
  - apply coo_ctor_spec with (1 := W); auto.
  - apply csr_ctor_spec with (1 := W); auto.
Qed.
Lemma mat_dtor_spec m s U E (Q : unit -> lstate -> Prop) :
  WF s U (mat_refs m ++ E) -> mat_ok s m -> closed s E ->
  (forall s', kext s s' -> l_kind s' = l_kind s -> l_next s' = l_next s -> WF s' U E -> Q tt s') ->
  wp (mat_dtor m) s Q.
Proof.
  intros W O C HQ. destruct m as [k|k r]; cbn [mat_dtor mat_refs mat_ok] in *.
  - eapply unshare_region_spec; eauto.
  - destruct O as [O1 O2]. rewrite <- app_assoc in W.
    bnd. eapply unshare_region_spec; [exact W|auto|apply closed_app; auto using region_closed|].
    intros s1 X1 K1 N1 W1. eapply unshare_region_spec; [exact W1| | |].
    + unfold region_ok. rewrite K1. exact O2.
    + intros p q c. rewrite K1. apply C.
    + intros s2 X2 K2 N2 W2. apply HQ; auto; try congruence. eapply kext_trans; eauto.
Qed.

(** One new partition with one owner: the only change. *)
Definition adds_part (s s' : lstate) (o q : nat) : Prop :=
  grow s s' /\ o = l_next s /\ l_next s' = S (l_next s) /\ (exists k, l_kind s' o = OPart q k) /\
  l_refs s' o = 1 /\ forall x, x <> o -> l_refs s' x = l_refs s x.

Lemma kernel_from_range_spec m rp s U E (Q : nat -> lstate -> Prop) :
  WF s U E -> (forall x, In x (mat_refs m) -> alive s x) -> mat_ok s m -> live_partition s rp ->
  (forall o s', adds_part s s' o (rg_is (kernel_region m)) -> live_partition s' o -> WF s' U (o :: E) -> Q o s') ->
  wp (kernel_from_range m rp) s Q.
Proof.
  intros W A O (Ap & q & k & Kp & Ak & Kk) HQ. destruct (mat_live m W A O) as [L L'].
  assert (HC : wp (rt_create_partition (rg_is (kernel_region m)) k) s Q).
  { destruct L as (A1 & A2 & A3 & A4 & A5 & A6).
    eapply wp_create_partition; eauto. intros o s1 g1 e1 N1 K1 R1 R2 W1. apply HQ; auto.
    - split; [exact g1|]. repeat split; eauto.
    - pose proof (wf_lt W _ Ak). split; [al W1|]. exists (rg_is (kernel_region m)), k.
      destruct g1 as [[_ Kx] G]. rewrite (Kx k) by auto. auto. }
  destruct m as [kr|kr rr]; cbn [kernel_from_range kernel_region] in *.
  - bnd. eapply wp_color; eauto. bnd. apply wp_need; [apply L|]. exact HC.
  - bnd. eapply wp_color; eauto. bnd. apply wp_lpart; [apply L'|auto|]. exact HC.
Qed.
Lemma kernel_from_domain_spec m rp s U E (Q : nat -> lstate -> Prop) :
  WF s U E -> (forall x, In x (mat_refs m) -> alive s x) -> mat_ok s m -> live_partition s rp ->
  (forall o s', adds_part s s' o (rg_is (kernel_region m)) -> live_partition s' o -> WF s' U (o :: E) -> Q o s') ->
  wp (kernel_from_domain m rp) s Q.
Proof.
  intros W A O (Ap & q & k & Kp & Ak & Kk) HQ. destruct (mat_live m W A O) as [L L'].
  unfold kernel_from_domain. bnd. eapply wp_color; eauto. bnd. apply wp_need; [apply L|].
  destruct L as (A1 & A2 & A3 & A4 & A5 & A6).
  eapply wp_create_partition; eauto. intros o s1 g1 e1 N1 K1 R1 R2 W1. apply HQ; auto.
  - split; [exact g1|]. repeat split; eauto.
  - pose proof (wf_lt W _ Ak). split; [al W1|]. exists (rg_is (kernel_region m)), k.
    destruct g1 as [[_ Kx] G]. rewrite (Kx k) by auto. auto.
Qed.
Lemma domain_from_kernel_spec m ds kp s U E (Q : nat -> lstate -> Prop) :
  WF s U E -> alive s (rg_id (kernel_region m)) -> live_space s ds -> live_partition s kp ->
  (forall o s', adds_part s s' o ds -> live_partition s' o -> WF s' U (o :: E) -> Q o s') ->
  wp (domain_from_kernel m ds kp) s Q.
Proof.
  intros W A (Ad & Kd) (Ap & q & k & Kp & Ak & Kk) HQ. unfold domain_from_kernel.
  bnd. apply wp_lpart; auto. bnd. eapply wp_color; eauto.
  eapply wp_create_partition; eauto. intros o s1 g1 e1 N1 K1 R1 R2 W1. apply HQ; auto.
  - split; [exact g1|]. repeat split; eauto.
  - pose proof (wf_lt W _ Ak). split; [al W1|]. exists ds, k.
    destruct g1 as [[_ Kx] G]. rewrite (Kx k) by auto. auto.
Qed.
Lemma range_from_kernel_spec m rs kp s U E (Q : nat -> lstate -> Prop) :
  WF s U E -> (forall x, In x (mat_refs m) -> alive s x) -> mat_ok s m -> live_space s rs -> live_partition s kp ->
  (forall o s', adds_part s s' o rs -> live_partition s' o -> WF s' U (o :: E) -> Q o s') ->
  wp (range_from_kernel m rs kp) s Q.
Proof.
  intros W A O (Ad & Kd) (Ap & q & k & Kp & Ak & Kk) HQ. destruct (mat_live m W A O) as [L L'].
  assert (HC : wp (rt_create_partition rs k) s Q).
  { eapply wp_create_partition; eauto. intros o s1 g1 e1 N1 K1 R1 R2 W1. apply HQ; auto.
    - split; [exact g1|]. repeat split; eauto.
    - pose proof (wf_lt W _ Ak). split; [al W1|]. exists rs, k.
      destruct g1 as [[_ Kx] G]. rewrite (Kx k) by auto. auto. }
  destruct m as [kr|kr rr]; cbn [range_from_kernel kernel_region] in *.
  - bnd. apply wp_lpart; auto; [apply L|]. bnd. eapply wp_color; eauto.
  - bnd. apply wp_assert. intros e. apply Nat.eqb_eq in e. bnd. eapply wp_color; eauto.
    bnd. apply wp_need; [apply L'|]. rewrite <- e. exact HC.
Qed.
