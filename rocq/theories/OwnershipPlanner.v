(** OwnershipPlanner: reference-count triples for SquarePlanner. *)
Require Import List Arith Bool Lia.
From Verif Require Import Ownership OwnershipSpec OwnershipFacts.
Import ListNotations.
Set Implicit Arguments.

(** Every partition in [X] has its parent in [Y]. *)
Definition pin (s : lstate) (X Y : list nat) : Prop :=
  forall p q k, In p X -> l_kind s p = OPart q k -> In q Y.
Lemma closed_pin s E : pin s E E -> closed s E. Proof. auto. Qed.
Lemma pin_app s X1 X2 Y : pin s X1 Y -> pin s X2 Y -> pin s (X1 ++ X2) Y.
Proof. intros A B p q k H. apply in_app_iff in H. destruct H; eauto. Qed.
Lemma pin_mono s X Y Y' : incl Y Y' -> pin s X Y -> pin s X Y'.
Proof. intros I H p q k Hp Hk. apply I. eapply H; eauto. Qed.
Lemma pin_nil s Y : pin s [] Y. Proof. intros ? ? ? []. Qed.
Lemma pin_nonpart s X Y : (forall x, In x X -> forall q k, l_kind s x <> OPart q k) -> pin s X Y.
Proof. intros H p q k Hp Hk. exfalso. eapply H; eauto. Qed.
Lemma pin_kext s s' X Y : kext s s' -> (forall x, In x X -> x < l_next s) -> pin s X Y -> pin s' X Y.
Proof. intros [_ K] B H p q k Hp Hk. eapply H; [exact Hp|]. rewrite <- K; eauto. Qed.

Lemma flat_map_app {A B} (f : A -> list B) l1 l2 : flat_map f (l1 ++ l2) = flat_map f l1 ++ flat_map f l2.
Proof. induction l1; cbn; auto. rewrite IHl1, app_assoc. reflexivity. Qed.
Lemma flat_map_concat {A B} (f : A -> list B) ll : flat_map (flat_map f) ll = flat_map f (concat ll).
Proof. induction ll; cbn; auto. rewrite flat_map_app, IHll. reflexivity. Qed.

Lemma Forall2_impl {A B} (P Q : A -> B -> Prop) l l' :
  (forall a b, P a b -> Q a b) -> Forall2 P l l' -> Forall2 Q l l'.
Proof. intros H F. induction F; auto. Qed.

Lemma Forall2_length {A B} (P : A -> B -> Prop) l l' : Forall2 P l l' -> length l = length l'.
Proof. induction 1; cbn; auto. Qed.

Ltac inc := let x := fresh in let Hx := fresh in intros x Hx; repeat (rewrite in_app_iff in * || cbn [In] in *); tauto.

Lemma ceq_incl E E' : ceq E E' -> incl E E'.
Proof. intros H x Hx. eapply ceq_In; eauto. Qed.

(** ** push_back and emplace_back *)

Lemma grow_tail_spec l v s U F (Q : list vec -> lstate -> Prop) :
  WF s U (vec_refs v ++ flat_map vec_refs l ++ F) -> Forall (vec_ok s) l -> vec_ok s v -> closed s F ->
  (forall s', kext s s' -> l_next s' = l_next s -> Forall (vec_ok s') (l ++ [v]) ->
     WF s' U (flat_map vec_refs (l ++ [v]) ++ F) -> Q (l ++ [v]) s') ->
  wp (let* l' := mapM vec_copy l in iterM vec_dtor l ;; ret (l' ++ [v])) s Q.
Proof.
  intros W Ol Ov C HQ.
  assert (Bl : forall x, In x (flat_map vec_refs l) -> x < l_next s).
  { intros x Hx. apply (wf_lt W), (wf_E W). rewrite !in_app_iff. auto. }
  assert (Bv : forall x, In x (vec_refs v) -> x < l_next s).
  { intros x Hx. apply (wf_lt W), (wf_E W). rewrite !in_app_iff. auto. }
  assert (BF : forall x, In x F -> x < l_next s).
  { intros x Hx. apply (wf_lt W), (wf_E W). rewrite !in_app_iff. auto. }
  bnd. eapply map_vec_copy_spec; [exact W| |exact Ol|].
  { intros x Hx. apply (wf_E W). rewrite !in_app_iff. auto. }
  intros s1 g1 N1 O1 W1.
  assert (Ov1 : vec_ok s1 v) by (eapply vec_ok_kext; [apply g1| |]; auto).
  assert (C1 : closed s1 F) by (eapply (@pin_kext s s1 F F); [apply g1|auto|exact C]).
  bnd. eapply iter_vec_dtor_spec with (E := flat_map vec_refs (l ++ [v]) ++ F).
  - eapply WF_ceq; [|exact W1]. rewrite flat_map_app. cbn [flat_map]. ceq.
  - exact O1.
  - apply closed_app; auto. apply vecs_closed. apply Forall_app. auto.
  - intros s2 X2 K2 N2 W2. apply wp_ret, HQ; auto.
    + eapply kext_trans; [apply g1|exact X2].
    + lia.
    + apply Forall_app. split; [|constructor; auto].
      * eapply Forall_impl; [|exact O1]. intros a. unfold vec_ok. rewrite K2. auto.
      * unfold vec_ok. rewrite K2. exact Ov1.
Qed.

Lemma push_back_spec g l v s U F (Q : list vec -> lstate -> Prop) :
  WF s U (flat_map vec_refs l ++ F) -> Forall (vec_ok s) l -> vec_ok s v ->
  (forall x, In x (vec_refs v) -> alive s x) -> closed s F ->
  (forall s', kext s s' -> l_next s' = l_next s -> Forall (vec_ok s') (l ++ [v]) ->
     WF s' U (flat_map vec_refs (l ++ [v]) ++ F) -> Q (l ++ [v]) s') ->
  wp (push_back g l v) s Q.
Proof.
  intros W Ol Ov Av C HQ. unfold push_back.
  assert (Bl : forall x, In x (flat_map vec_refs l) -> x < l_next s).
  { intros x Hx. apply (wf_lt W), (wf_E W). rewrite !in_app_iff. auto. }
  assert (BF : forall x, In x F -> x < l_next s).
  { intros x Hx. apply (wf_lt W), (wf_E W). rewrite !in_app_iff. auto. }
  bnd. eapply vec_copy_spec; [exact W|exact Av|exact Ov|]. intros s1 g1 N1 Ov1 W1.
  assert (O1 : Forall (vec_ok s1) l).
  { rewrite Forall_forall in *. intros a Ha. eapply vec_ok_kext; [apply g1| |auto].
    intros x Hx. apply Bl. apply in_flat_map. eauto. }
  assert (C1 : closed s1 F) by (eapply (@pin_kext s s1 F F); [apply g1|auto|exact C]).
  destruct g.
  - eapply grow_tail_spec; [exact W1|auto|auto|auto|]. intros s2 X2 N2 O2 W2.
    apply HQ; auto; [|lia]. eapply kext_trans; [apply g1|exact X2].
  - apply wp_ret, HQ; auto.
    + apply g1.
    + apply Forall_app. auto.
    + eapply WF_ceq; [|exact W1]. rewrite flat_map_app. cbn [flat_map]. ceq.
Qed.

Lemma emplace_back_spec g l r p s U F k (Q : list vec -> lstate -> Prop) :
  WF s U (flat_map vec_refs l ++ F) -> Forall (vec_ok s) l -> closed s F ->
  region_ok s r -> l_kind s p = OPart (rg_is r) k -> l_kind s k = OSpace ->
  incl [rg_id r; rg_fs r; p; k] F ->
  (forall l' s', kext s s' -> l_next s' = l_next s -> Forall (vec_ok s') l' -> length l' = S (length l) ->
     WF s' U (flat_map vec_refs l' ++ F) -> Q l' s') ->
  wp (emplace_back g l (r, p)) s Q.
Proof.
  intros W Ol C Rk Kp Kk I HQ. unfold emplace_back.
  assert (Bl : forall x, In x (flat_map vec_refs l) -> x < l_next s).
  { intros x Hx. apply (wf_lt W), (wf_E W). rewrite !in_app_iff. auto. }
  assert (BF : forall x, In x F -> x < l_next s).
  { intros x Hx. apply (wf_lt W), (wf_E W). rewrite !in_app_iff. auto. }
  assert (AI : forall x, In x [rg_id r; rg_fs r; p; k] -> alive s x).
  { intros x Hx. apply (wf_E W). rewrite in_app_iff. auto. }
  cbn [In] in AI.
  bnd. eapply vec_ctor_logical_spec; [exact W|auto|exact Rk|auto|auto 6| |].
  { exists k. auto 10. }
  intros v s1 g1 N1 Ov1 Ev1 Ev2 W1.
  assert (O1 : Forall (vec_ok s1) l).
  { rewrite Forall_forall in *. intros a Ha. eapply vec_ok_kext; [apply g1| |auto].
    intros x Hx. apply Bl. apply in_flat_map. eauto. }
  assert (C1 : closed s1 F) by (eapply (@pin_kext s s1 F F); [apply g1|auto|exact C]).
  destruct g.
  - eapply grow_tail_spec; [exact W1|auto|auto|auto|]. intros s2 X2 N2 O2 W2.
    apply HQ; auto; [|lia|].
    + eapply kext_trans; [apply g1|exact X2].
    + rewrite app_length. cbn. lia.
  - apply wp_ret, HQ; auto.
    + apply g1.
    + apply Forall_app. auto.
    + rewrite app_length. cbn. lia.
    + eapply WF_ceq; [|exact W1]. rewrite flat_map_app. cbn [flat_map]. ceq.
Qed.

Lemma workspace_row_spec g r p k U : forall rows j s F (Q : list (list vec) -> lstate -> Prop),
  WF s U (flat_map (flat_map vec_refs) rows ++ F) -> Forall (Forall (vec_ok s)) rows -> closed s F ->
  region_ok s r -> l_kind s p = OPart (rg_is r) k -> l_kind s k = OSpace ->
  incl [rg_id r; rg_is r; rg_fs r; p; k] F ->
  (forall rows' s', kext s s' -> l_next s' = l_next s -> Forall (Forall (vec_ok s')) rows' ->
     map (@length vec) rows' = map S (map (@length vec) rows) ->
     WF s' U (flat_map (flat_map vec_refs) rows' ++ F) -> Q rows' s') ->
  wp (workspace_row g j rows (r, p)) s Q.
Proof.
  induction rows as [|row rows IH]; intros j s F Q W O C Rk Kp Kk I HQ; cbn [workspace_row].
  - apply wp_ret, HQ; auto using kext_refl.
  - inversion O as [|? ? O1 O2]; subst.
    assert (BE : forall x, In x (flat_map (flat_map vec_refs) (row :: rows) ++ F) -> x < l_next s).
    { intros x Hx. apply (wf_lt W), (wf_E W), Hx. }
    cbn [flat_map] in W, BE. rewrite <- app_assoc in W.
    assert (Crows : closed s (flat_map (flat_map vec_refs) rows)).
    { rewrite flat_map_concat. apply vecs_closed. apply Forall_concat. exact O2. }
    bnd. eapply emplace_back_spec with (F := flat_map (flat_map vec_refs) rows ++ F);
      [exact W|exact O1|apply closed_app; auto|exact Rk|exact Kp|exact Kk| |].
    { intros x Hx. apply in_app_iff. right. apply I. cbn [In] in *. tauto. }
    intros row' s1 X1 N1 V1 L1 W1.
    bnd. eapply IH with (F := flat_map vec_refs row' ++ F).
    + eapply WF_ceq; [|exact W1]. ceq.
    + rewrite Forall_forall in *. intros rw Hr. specialize (O2 rw Hr). rewrite Forall_forall in *.
      intros a Ha. eapply vec_ok_kext; [apply X1| |auto]. intros x Hx. apply BE.
      rewrite !in_app_iff. left. right. apply in_flat_map. exists rw. split; auto.
      apply in_flat_map. eauto.
    + apply closed_app; [apply vecs_closed; auto|].
      eapply (@pin_kext s s1 F F); [apply X1| |exact C]. intros x Hx. apply BE, in_app_iff. auto.
    + eapply region_ok_kext; [apply X1| |exact Rk].
      intros x Hx. apply BE, in_app_iff. right. apply I. unfold region_refs in Hx. cbn [In] in *. tauto.
    + destruct X1 as [_ K1]. rewrite K1; [exact Kp|]. apply BE, in_app_iff. right. apply I. cbn [In]. tauto.
    + destruct X1 as [_ K1]. rewrite K1; [exact Kk|]. apply BE, in_app_iff. right. apply I. cbn [In]. tauto.
    + intros x Hx. apply in_app_iff. auto.
    + intros rows' s2 X2 N2 V2 L2 W2. apply wp_ret, HQ.
      * eapply kext_trans; eauto.
      * lia.
      * constructor; auto. rewrite Forall_forall in *. intros a Ha.
        eapply vec_ok_kext; [apply X2| |auto]. intros x Hx.
        apply (wf_lt W1), (wf_E W1). rewrite in_app_iff. left. apply in_flat_map. eauto.
      * cbn [map]. congruence.
      * eapply WF_ceq; [|exact W2]. cbn [flat_map]. ceq.
Qed.

(** A canonical (space, partition) pair: what the loop of [allocate_workspace] needs. *)
Definition pair_ok (s : lstate) (F : list nat) (sp pt : nat) : Prop :=
  exists k, l_kind s pt = OPart sp k /\ l_kind s sp = OSpace /\ l_kind s k = OSpace /\ incl [sp; pt; k] F.

Lemma workspace_loop_spec g wf U : forall sps pts i s F regs lps rows
    (Q : list region * list (region * nat) * list (list vec) -> lstate -> Prop),
  WF s U (flat_map (flat_map vec_refs) rows ++ map rg_id regs ++ F) ->
  Forall (Forall (vec_ok s)) rows -> closed s F -> Forall (region_ok s) regs ->
  l_kind s wf = OFields -> In wf F -> Forall2 (pair_ok s F) sps pts ->
  (forall regs' lps' rows' s', kext s s' -> Forall (Forall (vec_ok s')) rows' ->
     Forall (region_ok s') regs' ->
     WF s' U (flat_map (flat_map vec_refs) rows' ++ map rg_id regs' ++ F) -> Q (regs', lps', rows') s') ->
  Forall (fun r => In (rg_is r) F /\ In (rg_fs r) F) regs ->
  wp (workspace_loop g i wf sps pts regs lps rows) s Q.
Proof.
  induction sps as [|sp sps IH]; intros [|pt pts] i s F regs lps rows Q W O C R Kw Iw P HQ RF;
    cbn [workspace_loop]; try (apply wp_ret, HQ; auto using kext_refl; fail).
  inversion P as [|? ? ? ? (k & Kp & Ks & Kk & I) P2]; subst.
  assert (BE : forall x, In x (flat_map (flat_map vec_refs) rows ++ map rg_id regs ++ F) -> x < l_next s).
  { intros x Hx. apply (wf_lt W), (wf_E W), Hx. }
  assert (BF : forall x, In x F -> x < l_next s) by (intros; apply BE; rewrite !in_app_iff; auto).
  assert (AF : forall x, In x F -> alive s x).
  { intros x Hx. apply (wf_E W). rewrite !in_app_iff. auto. }
  bnd. eapply wp_create_region; [exact W|apply AF, I; cbn; auto|auto|].
  intros r s1 g1 E1 E2 E3 N1 K1 _ _ W1. pose proof (proj1 g1) as X1.
  assert (KF : forall x, In x F -> l_kind s1 x = l_kind s x) by (intros; apply X1; auto).
  bnd. apply wp_lpart; [apply (wf_E W1); cbn; auto|apply (proj2 g1), AF, I; cbn; auto|].
  assert (Rr : region_ok s1 r).
  { unfold region_ok. rewrite E1, E2, K1, !KF; auto. apply I; cbn; auto. }
  assert (Or1 : Forall (Forall (vec_ok s1)) rows).
  { rewrite Forall_forall in *. intros rw Hr. specialize (O rw Hr). rewrite Forall_forall in *.
    intros a Ha. eapply vec_ok_kext; [apply X1| |auto]. intros x Hx. apply BE.
    rewrite !in_app_iff. left. apply in_flat_map. exists rw. split; auto.
    apply in_flat_map. eauto. }
  assert (Rg1 : Forall (region_ok s1) (regs ++ [r])).
  { apply Forall_app. split; [|constructor; auto]. rewrite Forall_forall in *. intros a Ha.
    destruct (RF a Ha). eapply region_ok_kext; [apply X1| |auto].
    intros x Hx. apply BE. unfold region_refs in Hx. cbn [In] in Hx. rewrite !in_app_iff.
    destruct Hx as [<-|[<-|[<-|[]]]]; auto. right. left. apply in_map. exact Ha. }
  assert (NR : forall x, In x (map rg_id (regs ++ [r])) -> forall q c, l_kind s1 x <> OPart q c).
  { intros x Hx q c. apply in_map_iff in Hx. destruct Hx as (a & <- & Ha). rewrite Forall_forall in Rg1.
    destruct (Rg1 a Ha) as (Z & _). congruence. }
  bnd. eapply workspace_row_spec with (F := map rg_id (regs ++ [r]) ++ F) (k := k).
  - eapply WF_ceq; [|exact W1]. rewrite map_app. cbn [map]. ceq.
  - exact Or1.
  - apply closed_app; [apply closed_pin, pin_nonpart; exact NR|].
    eapply (@pin_kext s s1 F F); [apply X1|auto|exact C].
  - exact Rr.
  - rewrite KF; [congruence|]. apply I; cbn; auto.
  - rewrite KF; auto. apply I; cbn; auto.
  - intros x Hx. apply in_app_iff. cbn [In] in Hx. rewrite E1, E2 in Hx.
    destruct Hx as [<-|[<-|[<-|[<-|[<-|[]]]]]]; auto; try (right; apply I; cbn; auto; fail).
    left. rewrite map_app, in_app_iff. cbn. auto.
  - intros rows' s2 X2 N2 V2 L2 W2.
    assert (X : kext s s2) by (eapply kext_trans; eauto).
    assert (KF2 : forall x, In x F -> l_kind s2 x = l_kind s x) by (intros; apply X; auto).
    eapply IH with (F := F).
    + exact W2.
    + exact V2.
    + eapply (@pin_kext s s2 F F); [apply X|auto|exact C].
    + rewrite Forall_forall in *. intros a Ha. eapply region_ok_kext; [apply X2| |auto].
      intros x Hx. apply in_app_iff in Ha. unfold region_refs in Hx. cbn [In] in Hx.
      assert (x = rg_id a \/ In x F).
      { destruct Ha as [Ha|[<-|[]]].
        - destruct (RF a Ha). destruct Hx as [<-|[<-|[<-|[]]]]; auto.
        - rewrite E1, E2 in Hx. destruct Hx as [<-|[<-|[<-|[]]]]; auto. right. apply I. cbn; auto. }
      destruct H as [->|H]; [|rewrite N1; apply BF in H; lia].
      destruct Ha as [Ha|[<-|[]]]; [|lia]. rewrite N1.
      assert (rg_id a < l_next s); [|lia]. apply BE. rewrite !in_app_iff. right. left. apply in_map, Ha.
    + rewrite KF2; auto.
    + exact Iw.
    + eapply Forall2_impl; [|exact P2]. intros a b (k' & A1 & A2 & A3 & A4). exists k'.
      rewrite !KF2; auto; apply A4; cbn; auto.
    + intros regs' lps' rows'' s3 X3 V3 R3 W3. apply HQ; auto. eapply kext_trans; eauto.
    + apply Forall_app. split; auto. constructor; auto. rewrite E1, E2. split; auto. apply I; cbn; auto.
Qed.

(** ** The planner invariant *)

(** The entries of row_partitioned_matrices; [kspace n q]: matrix [n] is alive and its kernel space is [q]. *)
Definition pmat_ok (s : lstate) (kspace : nat -> nat -> Prop) (sps : list nat) (e : pmat) : Prop :=
  (exists q k, l_kind s (pm_kpart e) = OPart q k /\ kspace (pm_mat e) q) /\
  (exists q k, l_kind s (pm_ghost e) = OPart q k /\ In q sps).

Record plan_ok (s : lstate) (kspace : nat -> nat -> Prop) (p : planner) : Prop := {
  po_pairs : Forall2 (fun sp pt => exists v, In v (p_sol p ++ p_rhs p) /\ v_space v = sp /\ v_part v = pt)
               (p_spaces p) (p_parts p);
  po_fields : forall f, p_wfields p = Some f -> l_kind s f = OFields;
  po_regs : Forall (fun r => exists i f, l_kind s (rg_id r) = ORegion i f) (p_wregions p);
  po_sol : Forall (vec_ok s) (p_sol p);
  po_rhs : Forall (vec_ok s) (p_rhs p);
  po_work : Forall (Forall (vec_ok s)) (p_work p);
  po_mats : Forall (pmat_ok s kspace (p_spaces p)) (p_mats p)
}.

Lemma plan_spaces s ks p : plan_ok s ks p ->
  forall o, In o (p_spaces p) -> exists v, In v (p_sol p ++ p_rhs p) /\ v_space v = o.
Proof.
  intros P o Ho. pose proof (po_pairs P) as F. induction F as [|a b l l' (v & H1 & H2 & H3) F IH]; [destruct Ho|].
  destruct Ho as [->|Ho]; eauto.
Qed.
Lemma plan_parts s ks p : plan_ok s ks p ->
  forall o, In o (p_parts p) -> exists v, In v (p_sol p ++ p_rhs p) /\ v_part v = o /\ In (v_space v) (p_spaces p).
Proof.
  intros P o Ho. pose proof (po_pairs P) as F. induction F as [|a b l l' (v & H1 & H2 & H3) F IH]; [destruct Ho|].
  destruct Ho as [->|Ho].
  - exists v. subst. cbn; auto.
  - destruct (IH Ho) as (w & ? & ? & ?). exists w. cbn; auto.
Qed.
Lemma plan_vec s ks p v : plan_ok s ks p -> In v (p_sol p ++ p_rhs p) -> vec_ok s v.
Proof.
  intros P H. apply in_app_iff in H. pose proof (po_sol P) as A. pose proof (po_rhs P) as B.
  rewrite Forall_forall in *. destruct H; auto.
Qed.

(** All the planner's references except those of its vectors. *)
Definition plan_base (p : planner) : list nat :=
  p_spaces p ++ p_parts p ++ (match p_wfields p with None => [] | Some f => [f] end)
  ++ map rg_id (p_wregions p) ++ flat_map (fun e => [pm_kpart e; pm_ghost e]) (p_mats p).

Lemma plan_refs_split p :
  ceq (planner_refs p) (flat_map vec_refs (p_sol p) ++ flat_map vec_refs (p_rhs p)
        ++ flat_map (flat_map vec_refs) (p_work p) ++ plan_base p).
Proof. unfold planner_refs, plan_base. ceq. Qed.

Lemma plan_base_pin s ks p Y : plan_ok s ks p ->
  incl (p_spaces p) Y -> (forall e q, In e (p_mats p) -> ks (pm_mat e) q -> In q Y) ->
  pin s (plan_base p) Y.
Proof.
  intros P I1 I2. unfold plan_base. repeat apply pin_app.
  - apply pin_nonpart. intros x Hx q k. destruct (plan_spaces P _ Hx) as (v & Hv & <-).
    destruct (plan_vec _ P Hv) as (A & _). congruence.
  - intros x q k Hx Hk. destruct (plan_parts P _ Hx) as (v & Hv & <- & H).
    destruct (plan_vec _ P Hv) as (_ & _ & _ & _ & _ & _ & A). rewrite A in Hk.
    injection Hk as <- _. auto.
  - destruct (p_wfields p) eqn:e; [|apply pin_nil]. apply pin_nonpart.
    intros x [<-|[]] q k. rewrite (po_fields P e). congruence.
  - apply pin_nonpart. intros x Hx q k. apply in_map_iff in Hx. destruct Hx as (r & <- & Hr).
    pose proof (po_regs P) as R. rewrite Forall_forall in R. destruct (R r Hr) as (i & f & E). congruence.
  - intros x q k Hx Hk. apply in_flat_map in Hx. destruct Hx as (e & He & Hx).
    pose proof (po_mats P) as M. rewrite Forall_forall in M.
    destruct (M e He) as ((q1 & k1 & A1 & A2) & (q2 & k2 & B1 & B2)).
    destruct Hx as [<-|[<-|[]]].
    + rewrite A1 in Hk. injection Hk as <- _. eauto.
    + rewrite B1 in Hk. injection Hk as <- _. auto.
Qed.

Lemma plan_closed s ks p R : plan_ok s ks p ->
  closed s R -> (forall e q, In e (p_mats p) -> ks (pm_mat e) q -> In q R) ->
  closed s (planner_refs p ++ R).
Proof.
  intros P C I.
  eapply closed_ceq with (E := (flat_map vec_refs (p_sol p) ++ flat_map vec_refs (p_rhs p)
        ++ flat_map (flat_map vec_refs) (p_work p)) ++ plan_base p ++ R).
  { intro x. unfold planner_refs, plan_base. cnt_simp. lia. }
  apply closed_app.
  - repeat apply closed_app; try apply vecs_closed; try apply P.
    rewrite flat_map_concat. apply vecs_closed, Forall_concat, P.
  - apply closed_pin, pin_app.
    + eapply plan_base_pin; [exact P| |].
      * unfold plan_base. intros x Hx. rewrite !in_app_iff. auto.
      * intros e q He Hk. apply in_app_iff. right. eauto.
    + eapply pin_mono; [|exact C]. intros x Hx. apply in_app_iff. auto.
Qed.

Lemma plan_ok_kext s s' (ks ks' : nat -> nat -> Prop) p : kext s s' ->
  (forall x, In x (planner_refs p) -> x < l_next s) ->
  (forall e q, In e (p_mats p) -> ks (pm_mat e) q -> ks' (pm_mat e) q) -> plan_ok s ks p -> plan_ok s' ks' p.
Proof.
  intros X B H P. unfold planner_refs in B.
  assert (BV : forall v x, In v (p_sol p ++ p_rhs p ++ concat (p_work p)) -> In x (vec_refs v) -> x < l_next s).
  { intros v x Hv Hx. apply B. rewrite flat_map_concat. rewrite !in_app_iff in *.
    destruct Hv as [Hv|[Hv|Hv]]; [do 4 right; left|do 5 right; left|do 6 right; left];
      apply in_flat_map; eauto. }
  assert (VV : forall l, incl l (p_sol p ++ p_rhs p ++ concat (p_work p)) -> Forall (vec_ok s) l -> Forall (vec_ok s') l).
  { intros l I. rewrite !Forall_forall. intros F a Ha. eapply vec_ok_kext; [exact X| |auto].
    intros x Hx. eapply BV; [apply I, Ha|exact Hx]. }
  destruct X as [XN XK]. destruct P as [P1 P2 P3 P4 P5 P6 P7]. constructor; auto.
  - intros f e. rewrite XK; auto. apply B. rewrite e, !in_app_iff. cbn. auto.
  - rewrite Forall_forall in *. intros r Hr. rewrite XK; auto. apply B. rewrite !in_app_iff.
    do 3 right. left. apply in_map, Hr.
  - apply VV; auto. intros x. rewrite !in_app_iff. auto.
  - apply VV; auto. intros x. rewrite !in_app_iff. auto.
  - rewrite Forall_forall in *. intros l Hl. apply VV; auto. intros x Hx. rewrite !in_app_iff.
    do 2 right. apply in_concat. eauto.
  - rewrite Forall_forall in *. intros e He. destruct (P7 e He) as ((q1 & k1 & A1 & A2) & (q2 & k2 & B1 & B2)).
    assert (BB : pm_kpart e < l_next s /\ pm_ghost e < l_next s).
    { split; apply B; rewrite !in_app_iff; do 7 right; apply in_flat_map; exists e; cbn; auto. }
    split.
    + exists q1, k1. rewrite XK by apply BB. split; auto.
    + exists q2, k2. rewrite XK by apply BB. auto.
Qed.

(** ** Constructor and destructor *)

Lemma planner_ctor_ok s ks : plan_ok s ks planner_ctor.
Proof. constructor; cbn; auto. congruence. Qed.

Lemma iter_mats_spec sps ks U : forall l s E (Q : unit -> lstate -> Prop),
  WF s U (flat_map (fun e => [pm_kpart e; pm_ghost e]) l ++ E) -> Forall (pmat_ok s ks sps) l ->
  (forall s', kext s s' -> l_kind s' = l_kind s -> l_next s' = l_next s -> WF s' U E -> Q tt s') ->
  wp (iterM (fun e => rt_destroy_index_partition (pm_kpart e) ;; rt_destroy_index_partition (pm_ghost e)) l) s Q.
Proof.
  induction l as [|e l IH]; intros s E Q W O HQ; cbn [iterM].
  - apply wp_ret, HQ; auto using kext_refl.
  - inversion O as [|? ? ((q1 & k1 & A1 & _) & (q2 & k2 & B1 & _)) O2]; subst.
    cbn [flat_map app] in W.
    bnd. bnd. eapply wp_destroy_partition; [exact W|al W|exact A1|apply takes_E|]. intros s1 _ N1 K1 W1.
    eapply wp_destroy_partition; [exact W1|al W1|rewrite K1; exact B1|apply takes_E|]. intros s2 _ N2 K2 W2.
    eapply IH; [exact W2| |].
    + eapply Forall_impl; [|exact O2]. intros a. unfold pmat_ok. rewrite K2, K1. auto.
    + intros s3 X3 K3 N3 W3. apply HQ; auto; try congruence. split; [lia|]. intros. congruence.
Qed.
Lemma iter_regions_spec U : forall l s E (Q : unit -> lstate -> Prop),
  WF s U (map rg_id l ++ E) -> Forall (fun r => exists i f, l_kind s (rg_id r) = ORegion i f) l ->
  (forall s', kext s s' -> l_kind s' = l_kind s -> l_next s' = l_next s -> WF s' U E -> Q tt s') ->
  wp (iterM rt_destroy_logical_region l) s Q.
Proof.
  induction l as [|e l IH]; intros s E Q W O HQ; cbn [iterM].
  - apply wp_ret, HQ; auto using kext_refl.
  - inversion O as [|? ? (i & f & A1) O2]; subst. cbn [map app] in W.
    bnd. eapply wp_destroy_region; [exact W|al W|exact A1|apply takes_E|]. intros s1 _ N1 K1 W1.
    eapply IH; [exact W1| |].
    + eapply Forall_impl; [|exact O2]. intros a. cbn. rewrite K1. auto.
    + intros s3 X3 K3 N3 W3. apply HQ; auto; try congruence. split; [lia|]. intros. congruence.
Qed.
Lemma iter_parts_spec U : forall l s E (Q : unit -> lstate -> Prop),
  WF s U (l ++ E) -> Forall (fun o => exists i f, l_kind s o = OPart i f) l ->
  (forall s', kext s s' -> l_kind s' = l_kind s -> l_next s' = l_next s -> WF s' U E -> Q tt s') ->
  wp (iterM rt_destroy_index_partition l) s Q.
Proof.
  induction l as [|e l IH]; intros s E Q W O HQ; cbn [iterM].
  - apply wp_ret, HQ; auto using kext_refl.
  - inversion O as [|? ? (i & f & A1) O2]; subst. cbn [app] in W.
    bnd. eapply wp_destroy_partition; [exact W|al W|exact A1|apply takes_E|]. intros s1 _ N1 K1 W1.
    eapply IH; [exact W1| |].
    + eapply Forall_impl; [|exact O2]. intros a. cbn. rewrite K1. auto.
    + intros s3 X3 K3 N3 W3. apply HQ; auto; try congruence. split; [lia|]. intros. congruence.
Qed.
Lemma iter_spaces_spec U : forall l s E (Q : unit -> lstate -> Prop),
  WF s U (l ++ E) -> Forall (fun o => l_kind s o = OSpace) l -> closed s E ->
  (forall s', kext s s' -> l_kind s' = l_kind s -> l_next s' = l_next s -> WF s' U E -> Q tt s') ->
  wp (iterM rt_destroy_index_space l) s Q.
Proof.
  induction l as [|e l IH]; intros s E Q W O C HQ; cbn [iterM].
  - apply wp_ret, HQ; auto using kext_refl.
  - inversion O as [|? ? A1 O2]; subst. cbn [app] in W.
    bnd. eapply wp_destroy_space; [exact W|al W|exact A1|apply takes_E| |].
    { apply closed_app; auto. apply closed_pin, pin_nonpart. rewrite Forall_forall in O2.
      intros x Hx q k. rewrite O2; auto. congruence. }
    intros s1 _ N1 K1 W1.
    eapply IH; [exact W1| | |].
    + eapply Forall_impl; [|exact O2]. intros a. cbn. rewrite K1. auto.
    + intros p q k. rewrite K1. apply C.
    + intros s3 X3 K3 N3 W3. apply HQ; auto; try congruence. split; [lia|]. intros. congruence.
Qed.

Lemma planner_dtor_spec p s U E ks (Q : unit -> lstate -> Prop) :
  WF s U (planner_refs p ++ E) -> plan_ok s ks p -> closed s E ->
  (forall s', kext s s' -> l_kind s' = l_kind s -> l_next s' = l_next s -> WF s' U E -> Q tt s') ->
  wp (planner_dtor p) s Q.
Proof.
  intros W P C HQ. unfold planner_dtor.
  assert (SP : Forall (fun o => l_kind s o = OSpace) (p_spaces p)).
  { rewrite Forall_forall. intros o Ho. destruct (plan_spaces P _ Ho) as (v & Hv & <-).
    apply (plan_vec _ P Hv). }
  assert (PT : Forall (fun o => exists i f, l_kind s o = OPart i f) (p_parts p)).
  { rewrite Forall_forall. intros o Ho. destruct (plan_parts P _ Ho) as (v & Hv & <- & _).
    exists (v_space v), (v_color v). apply (plan_vec _ P Hv). }
  destruct P as [P1 P2 P3 P4 P5 P6 P7].
  set (VS := flat_map (flat_map vec_refs) (p_work p) ++ flat_map vec_refs (p_rhs p) ++ flat_map vec_refs (p_sol p) ++ E).
  assert (CV : closed s VS).
  { unfold VS. repeat apply closed_app; auto using vecs_closed.
    rewrite flat_map_concat. apply vecs_closed, Forall_concat, P6. }
  set (WFS := match p_wfields p with None => [] | Some f => [f] end).
  assert (W0 : WF s U (flat_map (fun e => [pm_kpart e; pm_ghost e]) (p_mats p)
                ++ (map rg_id (p_wregions p) ++ (WFS ++ (p_parts p ++ (p_spaces p ++ VS)))))).
  { eapply WF_ceq; [|exact W]. unfold planner_refs, VS, WFS. ceq. }
  bnd. eapply iter_mats_spec; [exact W0|exact P7|]. intros s1 X1 K1 N1 W1.
  bnd. eapply iter_regions_spec; [exact W1|rewrite K1; exact P3|]. intros s2 X2 K2 N2 W2.
  bnd.
  assert (HF : forall Q' : unit -> lstate -> Prop,
    (forall s', kext s2 s' -> l_kind s' = l_kind s2 -> l_next s' = l_next s2 ->
       WF s' U (p_parts p ++ (p_spaces p ++ VS)) -> Q' tt s') ->
    wp (match p_wfields p with None => ret tt | Some f => rt_destroy_field_space f end) s2 Q').
  { intros Q' HQ'. unfold WFS in W2. destruct (p_wfields p) as [f|] eqn:e.
    - cbn [app] in W2. eapply wp_destroy_fields; [exact W2|al W2|rewrite K2, K1; auto|apply takes_E|].
      intros s3 X3 N3 K3 W3. apply HQ'; auto.
    - apply wp_ret, HQ'; auto using kext_refl. }
  apply HF. clear HF. intros s3 X3 K3 N3 W3.
  bnd. eapply iter_parts_spec; [exact W3|rewrite K3, K2, K1; exact PT|]. intros s4 X4 K4 N4 W4.
  bnd. eapply iter_spaces_spec; [exact W4|rewrite K4, K3, K2, K1; exact SP| |].
  { intros a q k. rewrite K4, K3, K2, K1. apply CV. }
  intros s5 X5 K5 N5 W5. unfold VS in W5.
  assert (Keq : l_kind s5 = l_kind s) by congruence.
  assert (VO : forall s' l, l_kind s' = l_kind s -> Forall (vec_ok s) l -> Forall (vec_ok s') l).
  { intros s' l e F. eapply Forall_impl; [|exact F]. intros a. unfold vec_ok. rewrite e. auto. }
  assert (CL : forall s' l, l_kind s' = l_kind s -> closed s l -> closed s' l).
  { intros s' l e F a q k. rewrite e. apply F. }
  bnd. eapply iter2_vec_dtor_spec; [exact W5| | |].
  { eapply Forall_impl; [|exact P6]. intros l. apply VO. exact Keq. }
  { apply CL; auto. repeat apply closed_app; auto using vecs_closed. }
  intros s6 X6 K6 N6 W6.
  bnd. eapply iter_vec_dtor_spec; [exact W6|apply VO; [congruence|auto]| |].
  { apply CL; [congruence|]. repeat apply closed_app; auto using vecs_closed. }
  intros s7 X7 K7 N7 W7.
  eapply iter_vec_dtor_spec; [exact W7|apply VO; [congruence|auto]| |].
  { apply CL; [congruence|]. auto. }
  intros s8 X8 K8 N8 W8.
  assert (K : l_kind s8 = l_kind s) by congruence.
  apply HQ; auto; [|lia]. split; [lia|]. intros. congruence.
Qed.

(** ** The planner's mutators *)

Definition canon (sps pts : list nat) (idx : nat) (v : vec) : rt (list nat * list nat) :=
  let* a := canonical sps idx (v_space v) in
  let* b := canonical pts idx (v_part v) in ret (a, b).

Lemma wp_assoc {A B C} (m : rt A) (f : A -> rt B) (g : B -> rt C) s Q :
  wp (bind (bind m f) g) s Q -> wp (bind m (fun a => bind (f a) g)) s Q.
Proof. unfold wp, bind. destruct (m s); auto. Qed.

Lemma canonical_spec sps pts idx v s U E (Q : list nat -> list nat -> lstate -> Prop) :
  WF s U E -> (forall x, In x (vec_refs v) -> alive s x) -> length sps = length pts ->
  (forall s' sps' pts', grow s s' -> l_next s' = l_next s ->
     ((sps' = sps /\ pts' = pts /\ In (v_space v) sps /\ WF s' U E) \/
      (sps' = sps ++ [v_space v] /\ pts' = pts ++ [v_part v] /\ WF s' U (v_part v :: v_space v :: E))) ->
     Q sps' pts' s') ->
  wp (canonical sps idx (v_space v)) s (fun a s1 => wp (canonical pts idx (v_part v)) s1 (fun b s2 => Q a b s2)).
Proof.
  intros W A L HQ. unfold vec_refs in A. cbn [In] in A. unfold canonical at 1.
  destruct (nth_error sps idx) as [o|] eqn:e.
  - bnd. apply wp_assert. intros e1. apply Nat.eqb_eq in e1. subst o. apply wp_ret.
    unfold canonical. destruct (nth_error pts idx) as [o'|] eqn:e2.
    + bnd. apply wp_assert. intros _. apply wp_ret. apply HQ; auto using grow_refl.
      left. split; [auto|split; [auto|split; [|auto]]]. eapply nth_error_In; eauto.
    + exfalso. apply nth_error_None in e2. assert (idx < length sps) by (apply nth_error_Some; congruence). lia.
  - bnd. apply wp_assert. intros e1. bnd. eapply wp_share; [exact W|auto|]. intros s1 g1 N1 W1. apply wp_ret.
    unfold canonical. destruct (nth_error pts idx) as [o'|] eqn:e2.
    + exfalso. apply nth_error_None in e. assert (idx < length pts) by (apply nth_error_Some; congruence). lia.
    + bnd. apply wp_assert. intros _. bnd. eapply wp_share; [exact W1|up; auto 10|]. intros s2 g2 N2 W2. apply wp_ret.
      apply HQ; [eapply grow_trans; eauto|lia|]. right. auto.
Qed.

Lemma pmat_ok_incl s ks sps sps' e : incl sps sps' -> pmat_ok s ks sps e -> pmat_ok s ks sps' e.
Proof. intros I [A (q & k & B & C)]. split; auto. exists q, k. auto. Qed.

Lemma add_sol_spec g p v s U E (ks : nat -> nat -> Prop) (Q : planner -> lstate -> Prop) :
  WF s U (planner_refs p ++ E) -> plan_ok s ks p -> vec_ok s v -> incl (vec_refs v) E -> closed s E ->
  (forall e q, In e (p_mats p) -> ks (pm_mat e) q -> In q E) ->
  (forall p' s', kext s s' -> plan_ok s' ks p' -> p_mats p' = p_mats p ->
     WF s' U (planner_refs p' ++ E) -> Q p' s') ->
  wp (add_sol_vector g p v) s Q.
Proof.
  intros W P Ov Iv C KS HQ. unfold add_sol_vector.
  do 4 (bnd; apply wp_assert; intros _).
  assert (BE : forall x, In x (planner_refs p ++ E) -> x < l_next s) by (intros; apply (wf_lt W), (wf_E W); auto).
  bnd. eapply wp_mono; [eapply canonical_spec with
    (Q := fun a b s2 => wp (let* sol := push_back g (p_sol p) v in
        ret (Planner a b (p_wfields p) (p_wregions p) (p_wparts p) sol (p_rhs p) (p_work p) (p_mats p))) s2 Q)
    (idx := length (p_sol p)) (sps := p_spaces p) (pts := p_parts p); [exact W| | |]| ].
  - intros x Hx. apply (wf_E W), in_app_iff. auto.
  - eapply Forall2_length, P.
  - intros s2 sps' pts' g2 N2 D.
    set (p' := Planner sps' pts' (p_wfields p) (p_wregions p) (p_wparts p) (p_sol p ++ [v]) (p_rhs p) (p_work p) (p_mats p)).
    set (F := flat_map vec_refs (p_rhs p) ++ flat_map (flat_map vec_refs) (p_work p) ++ plan_base p' ++ E).
    assert (W2 : WF s2 U (flat_map vec_refs (p_sol p) ++ F)).
    { unfold F, plan_base. cbn. destruct D as [(-> & -> & _ & W2)|(-> & -> & W2)];
        (eapply WF_ceq; [|exact W2]); unfold planner_refs; ceq. }
    assert (Ov2 : vec_ok s2 v).
    { eapply vec_ok_kext; [apply g2| |exact Ov]. intros x Hx. apply BE, in_app_iff. auto. }
    assert (P2 : plan_ok s2 ks p).
    { eapply plan_ok_kext; [apply g2| | |exact P]; [|auto]. intros x Hx. apply BE, in_app_iff. auto. }
    assert (P' : plan_ok s2 ks p').
    { destruct P2 as [P1 P2 P3 P4 P5 P6 P7]. constructor; cbn; auto.
      - assert (F2 : Forall2 (fun sp pt => exists v0, In v0 ((p_sol p ++ [v]) ++ p_rhs p) /\ v_space v0 = sp /\ v_part v0 = pt) (p_spaces p) (p_parts p)).
        { eapply Forall2_impl; [|exact P1]. intros a b (w & A1 & A2 & A3). exists w. repeat split; auto.
          rewrite !in_app_iff in *. tauto. }
        destruct D as [(-> & -> & _)|(-> & -> & _)]; auto.
        apply Forall2_app; auto. constructor; auto. exists v. rewrite !in_app_iff. cbn. auto.
      - apply Forall_app; auto.
      - eapply Forall_impl; [|exact P7]. intros e. apply pmat_ok_incl.
        destruct D as [(-> & _)|(-> & _)]; [apply incl_refl|apply incl_appl, incl_refl]. }
    assert (CE2 : closed s2 E).
    { eapply (@pin_kext s s2 E E); [apply g2| |exact C]. intros x Hx. apply BE, in_app_iff. auto. }
    assert (CF : closed s2 F).
    { unfold F. apply closed_app; [apply vecs_closed, P2|].
      apply closed_app; [rewrite flat_map_concat; apply vecs_closed, Forall_concat, P2|].
      apply closed_pin, pin_app.
      - eapply plan_base_pin; [exact P'| |].
        + unfold plan_base. intros x Hx. rewrite !in_app_iff. auto.
        + intros e q He Hk. apply in_app_iff. right. eauto.
      - eapply pin_mono; [|exact CE2]. intros x Hx. apply in_app_iff. auto. }
    bnd. eapply push_back_spec; [exact W2|apply P2|exact Ov2| |exact CF|].
    { intros x Hx. apply (wf_E W2). unfold F. rewrite !in_app_iff. auto 10. }
    intros s3 X3 N3 O3 W3. apply wp_ret. fold p'. apply HQ.
    + eapply kext_trans; [apply g2|exact X3].
    + eapply plan_ok_kext; [exact X3| | |exact P']; [|auto].
      intros x Hx. rewrite <- N3. apply (wf_lt W3), (wf_E W3). unfold F.
      pose proof (ceq_incl (plan_refs_split p') _ Hx) as Hy. change (p_sol p') with (p_sol p ++ [v]) in Hy; change (p_rhs p') with (p_rhs p) in Hy; change (p_work p') with (p_work p) in Hy. rewrite !in_app_iff in *. tauto.
    + reflexivity.
    + eapply WF_ceq; [|exact W3]. unfold F. intro x. pose proof (plan_refs_split p' x) as Z.
      change (p_sol p') with (p_sol p ++ [v]) in Z; change (p_rhs p') with (p_rhs p) in Z; change (p_work p') with (p_work p) in Z. fold p'. cnt_simp. lia.
  - cbn. intros a s' H. bnd. exact H.
Qed.

Lemma add_rhs_spec g p v s U E (ks : nat -> nat -> Prop) (Q : planner -> lstate -> Prop) :
  WF s U (planner_refs p ++ E) -> plan_ok s ks p -> vec_ok s v -> incl (vec_refs v) E -> closed s E ->
  (forall e q, In e (p_mats p) -> ks (pm_mat e) q -> In q E) ->
  (forall p' s', kext s s' -> plan_ok s' ks p' -> p_mats p' = p_mats p ->
     WF s' U (planner_refs p' ++ E) -> Q p' s') ->
  wp (add_rhs_vector g p v) s Q.
Proof.
  intros W P Ov Iv C KS HQ. unfold add_rhs_vector.
  do 4 (bnd; apply wp_assert; intros _).
  assert (BE : forall x, In x (planner_refs p ++ E) -> x < l_next s) by (intros; apply (wf_lt W), (wf_E W); auto).
  bnd. eapply wp_mono; [eapply canonical_spec with
    (Q := fun a b s2 => wp (let* rhs := push_back g (p_rhs p) v in
        ret (Planner a b (p_wfields p) (p_wregions p) (p_wparts p) (p_sol p) rhs (p_work p) (p_mats p))) s2 Q)
    (idx := length (p_rhs p)) (sps := p_spaces p) (pts := p_parts p); [exact W| | |]| ].
  - intros x Hx. apply (wf_E W), in_app_iff. auto.
  - eapply Forall2_length, P.
  - intros s2 sps' pts' g2 N2 D.
    set (p' := Planner sps' pts' (p_wfields p) (p_wregions p) (p_wparts p) (p_sol p) (p_rhs p ++ [v]) (p_work p) (p_mats p)).
    set (F := flat_map vec_refs (p_sol p) ++ flat_map (flat_map vec_refs) (p_work p) ++ plan_base p' ++ E).
    assert (W2 : WF s2 U (flat_map vec_refs (p_rhs p) ++ F)).
    { unfold F, plan_base. cbn. destruct D as [(-> & -> & _ & W2)|(-> & -> & W2)];
        (eapply WF_ceq; [|exact W2]); unfold planner_refs; ceq. }
    assert (Ov2 : vec_ok s2 v).
    { eapply vec_ok_kext; [apply g2| |exact Ov]. intros x Hx. apply BE, in_app_iff. auto. }
    assert (P2 : plan_ok s2 ks p).
    { eapply plan_ok_kext; [apply g2| | |exact P]; [|auto]. intros x Hx. apply BE, in_app_iff. auto. }
    assert (P' : plan_ok s2 ks p').
    { destruct P2 as [P1 P2 P3 P4 P5 P6 P7]. constructor; cbn; auto.
      - assert (F2 : Forall2 (fun sp pt => exists v0, In v0 (p_sol p ++ (p_rhs p ++ [v])) /\ v_space v0 = sp /\ v_part v0 = pt) (p_spaces p) (p_parts p)).
        { eapply Forall2_impl; [|exact P1]. intros a b (w & A1 & A2 & A3). exists w. repeat split; auto.
          rewrite !in_app_iff in *. tauto. }
        destruct D as [(-> & -> & _)|(-> & -> & _)]; auto.
        apply Forall2_app; auto. constructor; auto. exists v. rewrite !in_app_iff. cbn. auto.
      - apply Forall_app; auto.
      - eapply Forall_impl; [|exact P7]. intros e. apply pmat_ok_incl.
        destruct D as [(-> & _)|(-> & _)]; [apply incl_refl|apply incl_appl, incl_refl]. }
    assert (CE2 : closed s2 E).
    { eapply (@pin_kext s s2 E E); [apply g2| |exact C]. intros x Hx. apply BE, in_app_iff. auto. }
    assert (CF : closed s2 F).
    { unfold F. apply closed_app; [apply vecs_closed, P2|].
      apply closed_app; [rewrite flat_map_concat; apply vecs_closed, Forall_concat, P2|].
      apply closed_pin, pin_app.
      - eapply plan_base_pin; [exact P'| |].
        + unfold plan_base. intros x Hx. rewrite !in_app_iff. auto.
        + intros e q He Hk. apply in_app_iff. right. eauto.
      - eapply pin_mono; [|exact CE2]. intros x Hx. apply in_app_iff. auto. }
    bnd. eapply push_back_spec; [exact W2|apply P2|exact Ov2| |exact CF|].
    { intros x Hx. apply (wf_E W2). unfold F. rewrite !in_app_iff. auto 10. }
    intros s3 X3 N3 O3 W3. apply wp_ret. fold p'. apply HQ.
    + eapply kext_trans; [apply g2|exact X3].
    + eapply plan_ok_kext; [exact X3| | |exact P']; [|auto].
      intros x Hx. rewrite <- N3. apply (wf_lt W3), (wf_E W3). unfold F.
      pose proof (ceq_incl (plan_refs_split p') _ Hx) as Hy. change (p_sol p') with (p_sol p) in Hy; change (p_rhs p') with (p_rhs p ++ [v]) in Hy; change (p_work p') with (p_work p) in Hy. rewrite !in_app_iff in *. tauto.
    + reflexivity.
    + eapply WF_ceq; [|exact W3]. unfold F. intro x. pose proof (plan_refs_split p' x) as Z.
      change (p_sol p') with (p_sol p) in Z; change (p_rhs p') with (p_rhs p ++ [v]) in Z; change (p_work p') with (p_work p) in Z. fold p'. cnt_simp. lia.
  - cbn. intros a s' H. bnd. exact H.
Qed.

Lemma is_none_true {A} (x : option A) : is_none x = true -> x = None.
Proof. destruct x; cbn; congruence. Qed.
Lemma is_nil_true {A} (l : list A) : is_nil l = true -> l = [].
Proof. destruct l; cbn; congruence. Qed.

Lemma flat_map_repeat_nil {A B} (f : list A -> list B) n : f [] = [] -> flat_map f (repeat [] n) = [].
Proof. intros H. induction n; cbn; auto. rewrite H, IHn. reflexivity. Qed.

Lemma allocate_spec g p n s U E (ks : nat -> nat -> Prop) (Q : planner -> lstate -> Prop) :
  WF s U (planner_refs p ++ E) -> plan_ok s ks p -> closed s E ->
  (forall e q, In e (p_mats p) -> ks (pm_mat e) q -> In q E) ->
  (forall p' s', kext s s' -> plan_ok s' ks p' -> p_mats p' = p_mats p ->
     WF s' U (planner_refs p' ++ E) -> Q p' s') ->
  wp (allocate_workspace g p n) s Q.
Proof.
  intros W P C KS HQ. unfold allocate_workspace.
  bnd. apply wp_assert. intros e1. apply is_none_true in e1.
  bnd. apply wp_assert. intros e2. apply is_nil_true in e2.
  bnd. apply wp_assert. intros e3. bnd. apply wp_assert. intros e4. apply is_nil_true in e4.
  bnd. apply wp_assert. intros _.
  assert (BE : forall x, In x (planner_refs p ++ E) -> x < l_next s) by (intros; apply (wf_lt W), (wf_E W); auto).
  assert (IB : forall v x, In v (p_sol p ++ p_rhs p) -> In x (vec_refs v) -> In x (planner_refs p ++ E)).
  { intros v x Hv Hx. unfold planner_refs. rewrite !in_app_iff in *.
    destruct Hv as [Hv|Hv]; left; [do 4 right; left|do 5 right; left]; apply in_flat_map; eauto. }
  bnd. eapply wp_create; [exact W|congruence|]. intros wf s1 g1 Ewf N1 Kf _ _ W1.
  assert (P1 : plan_ok s1 ks p).
  { eapply plan_ok_kext; [apply g1| | |exact P]; [|auto]. intros x Hx. apply BE, in_app_iff. auto. }
  assert (C1 : closed s1 E).
  { eapply (@pin_kext s s1 E E); [apply g1| |exact C]. intros x Hx. apply BE, in_app_iff. auto. }
  assert (CF : closed s1 (wf :: planner_refs p ++ E)).
  { apply closed_cons; [congruence|]. eapply plan_closed; eauto. }
  bnd. eapply workspace_loop_spec with (F := wf :: planner_refs p ++ E).
  - rewrite flat_map_repeat_nil by reflexivity. exact W1.
  - apply Forall_forall. intros x Hx. apply repeat_spec in Hx. subst. constructor.
  - exact CF.
  - constructor.
  - exact Kf.
  - cbn; auto.
  - eapply Forall2_impl; [|apply P1]. intros sp pt (v & Hv & <- & <-). exists (v_color v).
    destruct (plan_vec _ P1 Hv) as (A1 & A2 & A3 & A4 & A5 & A6 & A7).
    repeat split; auto. intros x Hx. right. eapply IB; [exact Hv|]. unfold vec_refs. cbn [In] in *. tauto.
  - intros regs' lps' rows' s2 X2 O2 R2 W2. apply wp_ret.
    assert (B1 : forall x, In x (planner_refs p) -> x < l_next s1).
    { intros x Hx. apply (wf_lt W1), (wf_E W1). cbn [In]. rewrite in_app_iff. auto. }
    assert (P2 : plan_ok s2 ks p) by (apply (@plan_ok_kext s1 s2 ks ks p); auto).
    apply HQ.
    + eapply kext_trans; [apply g1|exact X2].
    + destruct P2 as [Q1 Q2 Q3 Q4 Q5 Q6 Q7]. constructor; cbn; auto.
      * intros f ef. injection ef as <-. destruct X2 as [_ K2]. rewrite K2; [exact Kf|]. lia.
      * eapply Forall_impl; [|exact R2]. intros r (A & _). eauto.
    + reflexivity.
    + eapply WF_ceq; [|exact W2]. unfold planner_refs. cbn [p_spaces p_parts p_wfields p_wregions p_sol p_rhs p_work p_mats].
      rewrite e1, e2, e4. ceq.
  - constructor.
Qed.

Lemma add_mat_spec p name m d r s U E (ks : nat -> nat -> Prop) (Q : planner -> lstate -> Prop) :
  WF s U (planner_refs p ++ E) -> plan_ok s ks p -> mat_ok s m -> incl (mat_refs m) E ->
  ks name (rg_is (kernel_region m)) ->
  (forall p' s', kext s s' -> plan_ok s' ks p' ->
     (exists e, p_mats p' = p_mats p ++ [e] /\ pm_mat e = name) ->
     WF s' U (planner_refs p' ++ E) -> Q p' s') ->
  wp (add_row_partitioned_matrix p name m d r) s Q.
Proof.
  intros W P Om Im Kn HQ. unfold add_row_partitioned_matrix, get_num_spaces.
  bnd.
  bnd. apply wp_assert. intros L1. apply Nat.eqb_eq in L1.
  do 5 (bnd; apply wp_assert; intros _). apply wp_ret.
  bnd. apply wp_assert. intros Ld. apply Nat.ltb_lt in Ld.
  bnd. apply wp_assert. intros Lr. apply Nat.ltb_lt in Lr.
  assert (BE : forall x, In x (planner_refs p ++ E) -> x < l_next s) by (intros; apply (wf_lt W), (wf_E W); auto).
  assert (AM : forall x, In x (mat_refs m) -> alive s x) by (intros; apply (wf_E W), in_app_iff; auto).
  assert (IB : forall v x, In v (p_sol p ++ p_rhs p) -> In x (vec_refs v) -> In x (planner_refs p ++ E)).
  { intros v x Hv Hx. unfold planner_refs. rewrite !in_app_iff in *.
    destruct Hv as [Hv|Hv]; left; [do 4 right; left|do 5 right; left]; apply in_flat_map; eauto. }
  assert (LP : live_partition s (nth r (p_parts p) 0)).
  { assert (Hin : In (nth r (p_parts p) 0) (p_parts p)) by (apply nth_In; lia).
    destruct (plan_parts P _ Hin) as (v & Hv & <- & _).
    destruct (plan_vec _ P Hv) as (A1 & A2 & A3 & A4 & A5 & A6 & A7).
    split; [apply (wf_E W); eapply IB; eauto; unfold vec_refs; cbn; auto 10|].
    exists (v_space v), (v_color v). repeat split; auto.
    apply (wf_E W); eapply IB; eauto; unfold vec_refs; cbn; auto 10. }
  assert (Hd : In (nth d (p_spaces p) 0) (p_spaces p)) by (apply nth_In; lia).
  assert (LS : live_space s (nth d (p_spaces p) 0)).
  { destruct (plan_spaces P _ Hd) as (v & Hv & Ev).
    rewrite <- Ev. destruct (plan_vec _ P Hv) as (A1 & _). split; auto.
    apply (wf_E W); eapply IB; eauto; unfold vec_refs; cbn; auto 10. }
  destruct (mat_live m W AM Om) as [LK _].
  bnd. eapply kernel_from_range_spec; [exact W|exact AM|exact Om|exact LP|].
  intros kp s1 (g1 & e1 & N1 & (c1 & K1) & _) L1' W1.
  bnd. eapply domain_from_kernel_spec; [exact W1|apply (proj2 g1), LK| |exact L1'|].
  { destruct LS as [A B]. split; [apply (proj2 g1), A|]. destruct g1 as [[_ Kx] _]. rewrite Kx; auto.
    apply (wf_lt W), A. }
  intros gp s2 (g2 & e2 & N2 & (c2 & K2) & _) L2' W2.
  bnd. apply wp_lpart; [apply (proj2 g2), (proj2 g1), LK|apply (proj2 g2), (wf_E W1); cbn; auto|].
  apply wp_ret.
  assert (g : grow s s2) by (eapply grow_trans; eauto).
  apply HQ.
  - apply g.
  - assert (P2 : plan_ok s2 ks p).
    { eapply plan_ok_kext; [apply g| | |exact P]; [|auto]. intros x Hx. apply BE, in_app_iff. auto. }
    destruct P2 as [Q1 Q2 Q3 Q4 Q5 Q6 Q7]. constructor; cbn; auto.
    apply Forall_app. split; auto. constructor; auto. split; cbn.
    + exists (rg_is (kernel_region m)), c1. split; auto. destruct g2 as [[_ Kx] _]. rewrite Kx; auto. lia.
    + exists (nth d (p_spaces p) 0), c2. auto.
  - eexists. split; reflexivity.
  - eapply WF_ceq; [|exact W2]. unfold planner_refs. cbn [p_spaces p_parts p_wfields p_wregions p_sol p_rhs p_work p_mats].
    rewrite flat_map_app. cbn [flat_map app pm_kpart pm_ghost]. ceq.
Qed.
