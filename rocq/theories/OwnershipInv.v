(** OwnershipInv: the invariant of every correct client program. *)
Require Import List Arith Bool Lia.
From Verif Require Import Ownership OwnershipSpec OwnershipFacts OwnershipPlanner.
Import ListNotations.
Set Implicit Arguments.

(** ** Functions that build matrices *)

Lemma live_region_new s r is fs : alive s (rg_id r) -> l_kind s (rg_id r) = ORegion is fs ->
  rg_is r = is -> rg_fs r = fs -> alive s is -> l_kind s is = OSpace -> alive s fs -> l_kind s fs = OFields ->
  live_region s r.
Proof. intros; subst; unfold live_region; auto 10. Qed.

Ltac kk := repeat match goal with
  | h : grow _ ?t |- context [l_kind ?t _] => rewrite (proj2 (proj1 h)) by lia
  end.

Lemma create_coo_stencil_spec s U E (Q : mat * list nat -> lstate -> Prop) :
  WF s U E ->
  (forall m ip s' is fs mr cs, kext s s' -> mat_ok s' m -> 
     (exists a b, l_kind s' ip = OPart a b) ->
     (forall x, In x [is; fs; mr; cs] -> forall a b, l_kind s' x <> OPart a b) ->
     WF s' U (mat_refs m ++ [is; fs; mr; cs] ++ [ip] ++ E) -> Q (m, [is; fs; mr; cs; ip]) s') ->
  wp create_coo_stencil_matrix s Q.
Proof.
  intros W HQ. unfold create_coo_stencil_matrix.
  bnd. eapply wp_create; [exact W|congruence|]. intros is s1 g1 e1 N1 K1 _ _ W1.
  bnd. eapply wp_create; [exact W1|congruence|]. intros fs s2 g2 e2 N2 K2 _ _ W2.
  bnd. eapply wp_create_region; [exact W2|al W2|al W2|]. intros mr s3 g3 E1 E2 E3 N3 K3 _ _ W3.
  bnd. eapply wp_create; [exact W3|congruence|]. intros cs s4 g4 e4 N4 K4 _ _ W4.
  bnd. eapply wp_create_partition; [exact W4|al W4| |al W4|].
  { kk. exact K1. }
  intros ip s5 g5 e5 N5 K5 _ _ W5.
  bnd. apply wp_lpart; [al W5|al W5|].
  bnd. eapply coo_ctor_spec; [exact W5| |].
  { eapply live_region_new; eauto; try (al W5); kk; auto. }
  intros s6 g6 N6 O6 W6. apply wp_ret. apply HQ.
  - pose proof (proj1 g1). pose proof (proj1 g2). pose proof (proj1 g3). pose proof (proj1 g4). pose proof (proj1 g5). pose proof (proj1 g6).
    eauto 10 using kext_trans.
  - exact O6.
  - exists is, cs. kk. exact K5.
  - intros x Hx a b. cbn [In] in Hx. destruct Hx as [<-|[<-|[<-|[<-|[]]]]]; kk; congruence.
  - eapply WF_ceq; [|exact W6]. ceq.
Qed.

Lemma create_csr_stencil_spec s U E (Q : mat * list nat -> lstate -> Prop) :
  WF s U E ->
  (forall m kp rp s' ks rs kf rf kr rr cs, kext s s' -> mat_ok s' m -> 
     (exists a b, l_kind s' kp = OPart a b) -> (exists a b, l_kind s' rp = OPart a b) ->
     (forall x, In x [ks; rs; kf; rf; kr; rr; cs] -> forall a b, l_kind s' x <> OPart a b) ->
     WF s' U (mat_refs m ++ [ks; rs; kf; rf; kr; rr; cs] ++ [kp; rp] ++ E) ->
     Q (m, [ks; rs; kf; rf; kr; rr; cs; kp; rp]) s') ->
  wp create_csr_stencil_matrix s Q.
Proof.
  intros W HQ. unfold create_csr_stencil_matrix.
  bnd. eapply wp_create; [exact W|congruence|]. intros ks s1 g1 e1 N1 K1 _ _ W1.
  bnd. eapply wp_create; [exact W1|congruence|]. intros rs s2 g2 e2 N2 K2 _ _ W2.
  bnd. eapply wp_create; [exact W2|congruence|]. intros kf s3 g3 e3 N3 K3 _ _ W3.
  bnd. eapply wp_create; [exact W3|congruence|]. intros rf s4 g4 e4 N4 K4 _ _ W4.
  bnd. eapply wp_create_region; [exact W4|al W4|al W4|]. intros kr s5 g5 E1 E2 E3 N5 K5 _ _ W5.
  bnd. eapply wp_create_region; [exact W5|al W5|al W5|]. intros rr s6 g6 F1 F2 F3 N6 K6 _ _ W6.
  bnd. eapply wp_create; [exact W6|congruence|]. intros cs s7 g7 e7 N7 K7 _ _ W7.
  bnd. eapply wp_create_partition; [exact W7|al W7|kk; exact K1|al W7|]. intros kp s8 g8 e8 N8 K8 _ _ W8.
  bnd. apply wp_lpart; [al W8|al W8|].
  bnd. eapply wp_create_partition; [exact W8|al W8|kk; exact K2|al W8|]. intros rp s9 g9 e9 N9 K9 _ _ W9.
  bnd. apply wp_lpart; [al W9|al W9|].
  bnd. eapply csr_ctor_spec; [exact W9| | |].
  { eapply live_region_new with (is := ks) (fs := kf); eauto; try (al W9); kk; auto. }
  { eapply live_region_new with (is := rs) (fs := rf); eauto; try (al W9); kk; auto. }
  intros s10 g10 N10 O10 W10. apply wp_ret. apply HQ.
  - pose proof (proj1 g1). pose proof (proj1 g2). pose proof (proj1 g3). pose proof (proj1 g4). pose proof (proj1 g5). pose proof (proj1 g6).
    pose proof (proj1 g7). pose proof (proj1 g8). pose proof (proj1 g9). pose proof (proj1 g10).
    eauto 12 using kext_trans.
  - exact O10.
  - exists ks, cs. kk. exact K8.
  - exists rs, cs. kk. exact K9.
  - intros x Hx a b. cbn [In] in Hx. destruct Hx as [<-|[<-|[<-|[<-|[<-|[<-|[<-|[]]]]]]]]; kk; congruence.
  - eapply WF_ceq; [|exact W10]. ceq.
Qed.

Lemma closed_eq_kind s s' E : l_kind s' = l_kind s -> closed s E -> closed s' E.
Proof. intros e C p q k. rewrite e. apply C. Qed.

Lemma coo_laplacian_spec ls s U E (Q : mat -> lstate -> Prop) :
  WF s U E -> live_space s ls -> closed s E ->
  (forall m s', kext s s' -> mat_ok s' m -> WF s' U (mat_refs m ++ E) -> Q m s') ->
  wp (coo_negative_laplacian ls) s Q.
Proof.
  intros W [Als Kls] C HQ. unfold coo_negative_laplacian.
  bnd. eapply wp_create; [exact W|congruence|]. intros ks s1 g1 e1 N1 K1 _ _ W1.
  bnd. eapply wp_create; [exact W1|congruence|]. intros fs s2 g2 e2 N2 K2 _ _ W2.
  bnd. eapply wp_create_region; [exact W2|al W2|al W2|]. intros kr s3 g3 E1 E2 E3 N3 K3 _ _ W3.
  bnd. eapply wp_create_partition; [exact W3|al W3|kk; exact K1|up; exact Als|]. intros kp s4 g4 e4 N4 K4 _ _ W4.
  bnd. apply wp_lpart; [al W4|al W4|].
  bnd. eapply coo_ctor_spec; [exact W4| |].
  { eapply live_region_new; eauto; try (al W4); kk; auto. }
  intros s5 g5 N5 O5 W5.
  set (m := MCOO kr) in *.
  assert (BE : forall x, In x E -> x < l_next s) by (intros; apply (wf_lt W), (wf_E W); auto).
  assert (g : kext s s5).
  { pose proof (proj1 g1). pose proof (proj1 g2). pose proof (proj1 g3). pose proof (proj1 g4). pose proof (proj1 g5).
    eauto 10 using kext_trans. }
  assert (CE : closed s5 (mat_refs m ++ E)).
  { apply closed_app; [apply mat_closed, O5|]. eapply (@pin_kext s s5 E E); eauto. }
  assert (W5' : WF s5 U (kp :: rg_id kr :: fs :: ks :: (mat_refs m ++ E))).
  { eapply WF_ceq; [|exact W5]. ceq. }
  bnd. eapply wp_destroy_partition; [exact W5'|al W5'|kk; exact K4|apply takes_E|]. intros s6 _ N6 K6 W6.
  bnd. eapply wp_destroy_region; [exact W6|al W6|rewrite K6; kk; exact K3|apply takes_E|]. intros s7 _ N7 K7 W7.
  bnd. eapply wp_destroy_fields; [exact W7|al W7|rewrite K7, K6; kk; exact K2|apply takes_E|]. intros s8 _ N8 K8 W8.
  bnd. eapply wp_destroy_space; [exact W8|al W8|rewrite K8, K7, K6; kk; exact K1|apply takes_E| |].
  { eapply closed_eq_kind; [|exact CE]. congruence. }
  intros s9 _ N9 K9 W9. apply wp_ret.
  assert (K : l_kind s9 = l_kind s5) by congruence.
  apply HQ; auto.
  - destruct g as [gn gk]. split; [lia|]. intros o Ho. rewrite K. auto.
  - unfold mat_ok, m, region_ok in *. rewrite K. exact O5.
Qed.

Lemma csr_laplacian_spec ls s U E (Q : mat -> lstate -> Prop) :
  WF s U E -> live_space s ls -> closed s E ->
  (forall m s', kext s s' -> mat_ok s' m -> WF s' U (mat_refs m ++ E) -> Q m s') ->
  wp (csr_negative_laplacian ls) s Q.
Proof.
  intros W [Als Kls] C HQ. unfold csr_negative_laplacian.
  bnd. eapply wp_create; [exact W|congruence|]. intros ks s1 g1 e1 N1 K1 _ _ W1.
  bnd. eapply wp_create; [exact W1|congruence|]. intros kf s2 g2 e2 N2 K2 _ _ W2.
  bnd. eapply wp_create_region; [exact W2|al W2|al W2|]. intros kr s3 g3 E1 E2 E3 N3 K3 _ _ W3.
  bnd. eapply wp_create_partition; [exact W3|al W3|kk; exact K1|up; exact Als|]. intros kp s4 g4 e4 N4 K4 _ _ W4.
  bnd. apply wp_lpart; [al W4|al W4|].
  bnd. eapply wp_create; [exact W4|congruence|]. intros rs s5 g5 e5 N5 K5 _ _ W5.
  bnd. eapply wp_create; [exact W5|congruence|]. intros rf s6 g6 e6 N6 K6 _ _ W6.
  bnd. eapply wp_create_region; [exact W6|al W6|al W6|]. intros rr s7 g7 F1 F2 F3 N7 K7 _ _ W7.
  bnd. eapply wp_create_partition; [exact W7|al W7|kk; exact K5|up; exact Als|]. intros rp s8 g8 e8 N8 K8 _ _ W8.
  bnd. apply wp_lpart; [al W8|al W8|].
  bnd. eapply csr_ctor_spec; [exact W8| | |].
  { eapply live_region_new with (is := ks) (fs := kf); eauto; try (al W8); kk; auto. }
  { eapply live_region_new with (is := rs) (fs := rf); eauto; try (al W8); kk; auto. }
  intros s9 g9 N9 O9 W9.
  set (m := MCSR kr rr) in *.
  assert (BE : forall x, In x E -> x < l_next s) by (intros; apply (wf_lt W), (wf_E W); auto).
  assert (g : kext s s9).
  { pose proof (proj1 g1). pose proof (proj1 g2). pose proof (proj1 g3). pose proof (proj1 g4). pose proof (proj1 g5).
    pose proof (proj1 g6). pose proof (proj1 g7). pose proof (proj1 g8). pose proof (proj1 g9).
    eauto 12 using kext_trans. }
  assert (CE : closed s9 (mat_refs m ++ E)).
  { apply closed_app; [apply mat_closed, O9|]. eapply (@pin_kext s s9 E E); eauto. }
  assert (W9' : WF s9 U (rp :: rg_id rr :: rf :: rs :: kp :: rg_id kr :: kf :: ks :: (mat_refs m ++ E))).
  { eapply WF_ceq; [|exact W9]. ceq. }
  assert (KP : l_kind s9 kp = OPart ks ls) by (kk; exact K4).
  assert (KKS : l_kind s9 ks = OSpace) by (kk; exact K1).
  assert (KKF : l_kind s9 kf = OFields) by (kk; exact K2).
  assert (KKR : l_kind s9 (rg_id kr) = ORegion ks kf) by (kk; exact K3).
  assert (KRS : l_kind s9 rs = OSpace) by (kk; exact K5).
  assert (KRF : l_kind s9 rf = OFields) by (kk; exact K6).
  assert (KRR : l_kind s9 (rg_id rr) = ORegion rs rf) by (kk; exact K7).
  assert (KRP : l_kind s9 rp = OPart rs ls) by (kk; exact K8).
  bnd. eapply wp_destroy_partition; [exact W9'|al W9'|exact KRP|apply takes_E|]. intros s10 _ N10 K10 W10.
  bnd. eapply wp_destroy_region; [exact W10|al W10|rewrite K10; exact KRR|apply takes_E|]. intros s11 _ N11 K11 W11.
  bnd. eapply wp_destroy_fields; [exact W11|al W11|rewrite K11, K10; exact KRF|apply takes_E|]. intros s12 _ N12 K12 W12.
  assert (L12 : l_kind s12 = l_kind s9) by congruence.
  bnd. eapply wp_destroy_space; [exact W12|al W12|rewrite L12; exact KRS|apply takes_E| |].
  { eapply closed_eq_kind; [exact L12|].
    apply closed_cons; [intros q k; rewrite KP; intros H; injection H as <- _; cbn; auto|].
    do 3 (apply closed_cons; [congruence|]). exact CE. }
  intros s13 _ N13 K13 W13.
  assert (L13 : l_kind s13 = l_kind s9) by congruence.
  bnd. eapply wp_destroy_partition; [exact W13|al W13|rewrite L13; exact KP|apply takes_E|]. intros s14 _ N14 K14 W14.
  bnd. eapply wp_destroy_region; [exact W14|al W14|rewrite K14, L13; exact KKR|apply takes_E|]. intros s15 _ N15 K15 W15.
  bnd. eapply wp_destroy_fields; [exact W15|al W15|rewrite K15, K14, L13; exact KKF|apply takes_E|]. intros s16 _ N16 K16 W16.
  bnd. eapply wp_destroy_space; [exact W16|al W16|rewrite K16, K15, K14, L13; exact KKS|apply takes_E| |].
  { eapply closed_eq_kind; [|exact CE]. congruence. }
  intros s17 _ N17 K17 W17. apply wp_ret.
  assert (K : l_kind s17 = l_kind s9) by congruence.
  apply HQ; auto.
  - destruct g as [gn gk]. split; [lia|]. intros o Ho. rewrite K. auto.
  - unfold mat_ok, m, region_ok in *. rewrite K. exact O9.
Qed.

Lemma print_spec p s U E (Q : unit -> lstate -> Prop) :
  WF s U E -> live_partition s p ->
  (forall s', kext s s' -> (forall x, x < l_next s -> l_refs s' x = l_refs s x) -> WF s' U E -> Q tt s') ->
  wp (print_index_partition p) s Q.
Proof.
  intros W (Ap & q & k & Kp & Ak & Kk) HQ. unfold print_index_partition.
  destruct (wf_par W Ap Kp) as [Aq Kq]. pose proof (wf_lt W _ Ap). pose proof (wf_lt W _ Aq).
  bnd. eapply wp_color; eauto. bnd. apply wp_need; auto.
  bnd. eapply wp_create; [exact W|congruence|]. intros fs s1 g1 e1 N1 K1 R1 Q1 W1.
  bnd. eapply wp_parent; [up; auto|kk; exact Kp|].
  bnd. eapply wp_create_region; [exact W1|up; auto|al W1|]. intros r s2 g2 E1 E2 E3 N2 K2 R2 Q2 W2.
  bnd. apply wp_lpart; [al W2|up; auto|].
  bnd. eapply wp_destroy_region; [exact W2|al W2|exact K2|apply takes_E|]. intros s3 _ N3 K3 W3.
  eapply wp_destroy_fields; [exact W3|al W3|rewrite K3; kk; exact K1|apply takes_E|]. intros s4 X4 N4 K4 W4.
  apply HQ; auto.
  - split; [lia|]. intros o Ho. rewrite K4, K3. kk. reflexivity.
  - intros x Hx. destruct (Nat.eq_dec (l_refs s x) 0) as [z|z].
    + destruct (Nat.eq_dec (l_refs s4 x) 0) as [z4|z4]; [congruence|].
      exfalso. (* alive in s4 would make it alive in s *)
      assert (In x U \/ In x E).
      { pose proof (wf_cnt W4 _ z4) as c4. rewrite !cnt_In. lia. }
      destruct H1 as [H1|H1]; [|apply (wf_E W) in H1; congruence].
      destruct (wf_stale W _ H1) as [A|(q' & k' & A1 & A2 & A3)]; [congruence|].
      assert (A1' : l_kind s4 x = OPart q' k') by (rewrite K4, K3; kk; exact A1).
      destruct (wf_par W4 z4 A1') as [A4 _].
      pose proof (wf_cnt W4 _ A4) as c4.
      assert (In q' U \/ In q' E) by (rewrite !cnt_In; unfold alive in A4; lia).
      destruct H2 as [H2|H2]; [|apply (wf_E W) in H2; contradiction].
      destruct (wf_stale W _ H2) as [B|(q2 & k2 & B1 & B2 & B3)]; [contradiction|].
      destruct (wf_par W4 z4 A1') as [_ Z]. rewrite K4, K3 in Z.
      rewrite (proj2 (proj1 g2)) in Z by lia. rewrite (proj2 (proj1 g1)) in Z by lia. congruence.
    + rewrite (wf_cnt W _ z). destruct (Nat.eq_dec (l_refs s4 x) 0) as [z4|z4].
      * exfalso. assert (In x U \/ In x E).
        { pose proof (wf_cnt W _ z). rewrite !cnt_In. lia. }
        destruct H1 as [H1|H1]; [|apply (wf_E W4) in H1; congruence].
        destruct (wf_stale W4 _ H1) as [B|(q2 & k2 & B1 & B2 & B3)]; [congruence|].
        assert (B1' : l_kind s x = OPart q2 k2).
        { rewrite K4, K3 in B1. rewrite (proj2 (proj1 g2)) in B1 by lia. rewrite (proj2 (proj1 g1)) in B1 by lia. exact B1. }
        destruct (wf_par W z B1') as [Aq2 Kq2]. pose proof (wf_lt W _ Aq2).
        destruct (In_dec Nat.eq_dec q2 E) as [i|i]; [apply (wf_E W4) in i; contradiction|].
        assert (In q2 U).
        { pose proof (wf_cnt W _ Aq2). rewrite cnt_In in *. unfold alive in Aq2. lia. }
        destruct (wf_stale W4 _ H3) as [Z|(q3 & k3 & C1 & _)]; [contradiction|].
        rewrite K4, K3 in C1. rewrite (proj2 (proj1 g2)) in C1 by lia. rewrite (proj2 (proj1 g1)) in C1 by lia. congruence.
      * rewrite (wf_cnt W4 _ z4). reflexivity.
Qed.

(** ** Environments *)

Lemma lookup_split n e x : lookup n e = Some x ->
  exists e1 e2, e = e1 ++ (n, x) :: e2 /\ unset n e = e1 ++ e2 /\ forall y, set n y e = e1 ++ (n, y) :: e2.
Proof.
  induction e as [|[m y] e IH]; cbn; [congruence|].
  destruct (n =? m) eqn:E.
  - intros H. injection H as <-. apply Nat.eqb_eq in E. subst m. exists [], e. auto.
  - intros H. destruct (IH H) as (e1 & e2 & A & B & C). exists ((m, y) :: e1), e2. rewrite A at 1. rewrite B.
    repeat split; auto. intros z. rewrite C. reflexivity.
Qed.
Lemma lookup_In n e x : lookup n e = Some x -> In (n, x) e.
Proof. intros H. destruct (lookup_split _ _ H) as (e1 & e2 & -> & _). apply in_app_iff. cbn. auto. Qed.

Lemma env_refs_app e1 e2 : env_refs (e1 ++ e2) = env_refs e1 ++ env_refs e2.
Proof. apply flat_map_app. Qed.

(** Matrix [n] is alive and its kernel region has index space [q]. *)
Definition kspace (e : list (nat * cobj)) (n q : nat) : Prop :=
  exists m, In (n, CMat m) e /\ rg_is (kernel_region m) = q.

Definition obj_ok (s : lstate) (e : list (nat * cobj)) (x : cobj) : Prop :=
  match x with CVec v => vec_ok s v | CMat m => mat_ok s m | CPlan p => plan_ok s (kspace e) p end.
Definition env_ok (s : lstate) (e : list (nat * cobj)) : Prop := forall n x, In (n, x) e -> obj_ok s e x.

Lemma kspace_refs e n q : kspace e n q -> In q (env_refs e).
Proof.
  intros (m & H & <-). apply in_flat_map. exists (n, CMat m). split; auto.
  destruct m; cbn; auto.
Qed.

Lemma env_closed s e : env_ok s e -> closed s (env_refs e).
Proof.
  intros O p q k Hp Hk. unfold env_refs in Hp. apply in_flat_map in Hp. destruct Hp as ([n x] & Hx & Hp).
  assert (I : incl (obj_refs x) (env_refs e)).
  { intros y Hy. apply in_flat_map. exists (n, x). auto. }
  pose proof (O _ _ Hx) as Ox. destruct x as [v|m|p0]; cbn [obj_ok] in Ox; cbn [snd obj_refs] in Hp.
  - apply I. cbn [obj_refs]. eapply vec_closed; eauto.
  - apply I. cbn [obj_refs]. eapply mat_closed; eauto.
  - cbn [obj_refs] in I. destruct (in_app_iff (planner_refs p0) (env_refs e) q) as [H _].
    assert (In q (planner_refs p0 ++ env_refs e)); [|destruct H; auto].
    assert (C : pin s (planner_refs p0) (planner_refs p0 ++ env_refs e)).
    { assert (CV : closed s (flat_map vec_refs (p_sol p0) ++ flat_map vec_refs (p_rhs p0)
        ++ flat_map (flat_map vec_refs) (p_work p0))).
      { repeat apply closed_app; try apply vecs_closed; try apply Ox.
        rewrite flat_map_concat. apply vecs_closed, Forall_concat, Ox. }
      assert (CB : pin s (plan_base p0) (planner_refs p0 ++ env_refs e)).
      { eapply plan_base_pin; [exact Ox| |].
        - unfold planner_refs. intros y Hy. rewrite !in_app_iff. auto.
        - intros e0 q0 _ Hq. apply in_app_iff. right. eapply kspace_refs; eauto. }
      intros y q0 k0 Hy Hk0.
      pose proof (ceq_incl (plan_refs_split p0) _ Hy) as Hz.
      rewrite !app_assoc in Hz. rewrite <- !app_assoc in Hz.
      assert (Hz' : In y (flat_map vec_refs (p_sol p0) ++ flat_map vec_refs (p_rhs p0) ++ flat_map (flat_map vec_refs) (p_work p0)) \/ In y (plan_base p0)).
      { rewrite !in_app_iff in *. tauto. }
      destruct Hz' as [Hz'|Hz']; [|eauto].
      pose proof (CV _ _ _ Hz' Hk0) as G. unfold planner_refs. rewrite !in_app_iff in *. tauto. }
    eapply C; eauto.
Qed.

Lemma obj_ok_kext s s' e e' x : kext s s' -> (forall y, In y (obj_refs x) -> y < l_next s) ->
  (forall p, x = CPlan p -> forall el q, In el (p_mats p) -> kspace e (pm_mat el) q -> kspace e' (pm_mat el) q) ->
  obj_ok s e x -> obj_ok s' e' x.
Proof.
  intros X B K. destruct x as [v|m|p]; cbn.
  - eapply vec_ok_kext; eauto.
  - eapply mat_ok_kext; eauto.
  - eapply plan_ok_kext; eauto.
Qed.

Record inv (c : client) : Prop := {
  i_lost : exists LP LN,
    ceq (c_lost c) (LP ++ LN) /\
    (forall o, In o LP -> exists q k, l_kind (c_rt c) o = OPart q k) /\
    (forall o, In o LN -> forall q k, l_kind (c_rt c) o <> OPart q k) /\
    WF (c_rt c) (c_user c ++ LP) (env_refs (c_env c) ++ LN);
  i_env : env_ok (c_rt c) (c_env c);
  i_names : NoDup (map fst (c_env c));
  i_fresh : forall n, In n (map fst (c_env c)) -> n < c_fresh c
}.

Definition good (r : cres) : Prop :=
  match r with COk c => inv c | CIllegal => False | CAbort => True end.

Lemma run_wp {A} (m : rt A) c k : wp m (c_rt c) (fun a s => inv (k a s)) -> good (run m c k).
Proof. unfold wp, run, good. destruct (m (c_rt c)); auto. Qed.

(** Environment unchanged. *)
Lemma inv_same_env c s user lost LP LN :
  inv c -> kext (c_rt c) s ->
  ceq lost (LP ++ LN) ->
  (forall o, In o LP -> exists q k, l_kind s o = OPart q k) ->
  (forall o, In o LN -> forall q k, l_kind s o <> OPart q k) ->
  WF s (user ++ LP) (env_refs (c_env c) ++ LN) ->
  inv (Client s user (c_env c) lost (c_fresh c)).
Proof.
  intros I X L1 L2 L3 W. constructor; cbn [c_rt c_user c_env c_lost c_fresh].
  - exists LP, LN. auto.
  - intros n x Hx. eapply obj_ok_kext with (e := c_env c); [exact X| |auto|eapply (i_env I); eauto].
    destruct (i_lost I) as (? & ? & _ & _ & _ & W0). intros y Hy. apply (wf_lt W0), (wf_E W0).
    apply in_app_iff. left. apply in_flat_map. exists (n, x). auto.
  - apply (i_names I).
  - apply (i_fresh I).
Qed.

Lemma inv_new c x s LP LN lost :
  inv c -> kext (c_rt c) s -> obj_ok s ((c_fresh c, x) :: c_env c) x ->
  ceq lost (LP ++ LN) ->
  (forall o, In o LP -> exists q k, l_kind s o = OPart q k) ->
  (forall o, In o LN -> forall q k, l_kind s o <> OPart q k) ->
  WF s (c_user c ++ LP) (obj_refs x ++ env_refs (c_env c) ++ LN) ->
  inv (Client s (c_user c) ((c_fresh c, x) :: c_env c) lost (S (c_fresh c))).
Proof.
  intros I X O L1 L2 L3 W. constructor; cbn [c_rt c_user c_env c_lost c_fresh].
  - exists LP, LN. split; [auto|]. split; [auto|]. split; [auto|].
    change (WF s (c_user c ++ LP) ((obj_refs x ++ env_refs (c_env c)) ++ LN)). rewrite <- app_assoc. exact W.
  - intros n y [H|Hy].
    + injection H as <- <-. exact O.
    + eapply obj_ok_kext with (e := c_env c); [exact X| | |eapply (i_env I); eauto].
      * destruct (i_lost I) as (? & ? & _ & _ & _ & W0). intros z Hz. apply (wf_lt W0), (wf_E W0).
        apply in_app_iff. left. apply in_flat_map. exists (n, y). auto.
      * intros p _ el q _ (m & Hm & Hq). exists m. cbn; auto.
  - cbn [map fst]. constructor; [|apply (i_names I)]. cbn. intros H. apply (i_fresh I) in H. lia.
  - cbn [map fst]. intros n [<-|H]; [lia|]. apply (i_fresh I) in H. lia.
Qed.

Definition removable (e : list (nat * cobj)) (n : nat) (x : cobj) : Prop :=
  forall m, x = CMat m -> forall k p, In (k, CPlan p) e -> ~ points_to p n.

Lemma names_unique (e1 e2 : list (nat * cobj)) n x y :
  NoDup (map fst (e1 ++ (n, x) :: e2)) -> In (n, y) (e1 ++ (n, x) :: e2) -> y = x.
Proof.
  intros N H. rewrite map_app in N. cbn in N. apply NoDup_remove_2 in N. rewrite <- map_app in N.
  apply in_app_iff in H. cbn in H. destruct H as [H|[H|H]]; [|congruence|]; exfalso; apply N;
    apply in_map_iff; exists (n, y); split; auto; apply in_app_iff; auto.
Qed.

Lemma kspace_removed e1 e2 n x m q : kspace (e1 ++ (n, x) :: e2) m q -> ((forall k, x <> CMat k) \/ m <> n) ->
  kspace (e1 ++ e2) m q.
Proof.
  intros (k & Hk & Hq) D. exists k. split; auto. apply in_app_iff. apply in_app_iff in Hk. cbn in Hk.
  destruct Hk as [Hk|[Hk|Hk]]; auto. exfalso. injection Hk as -> ->. destruct D as [D|D]; [eapply D; eauto|congruence].
Qed.

Lemma rest_ok s e1 e2 n x : env_ok s (e1 ++ (n, x) :: e2) -> removable (e1 ++ (n, x) :: e2) n x ->
  env_ok s (e1 ++ e2).
Proof.
  intros O R k y Hy.
  assert (Hy' : In (k, y) (e1 ++ (n, x) :: e2)) by (rewrite in_app_iff in *; cbn; tauto).
  pose proof (O _ _ Hy') as Oy. destruct y as [v|m|p]; cbn in *; auto.
  destruct Oy as [P1 P2 P3 P4 P5 P6 P7]. constructor; auto.
  rewrite Forall_forall in *. intros el Hel. destruct (P7 el Hel) as ((q1 & k1 & A1 & A2) & B).
  split; auto. exists q1, k1. split; auto. eapply kspace_removed; [exact A2|].
  destruct x as [v|m|p']; [left; congruence| |left; congruence].
  right. intros e. eapply (R m eq_refl k p Hy'). exists el. auto.
Qed.

Lemma env_refs_split e1 e2 n x : ceq (env_refs (e1 ++ (n, x) :: e2)) (obj_refs x ++ env_refs (e1 ++ e2)).
Proof.
  rewrite !env_refs_app. unfold env_refs at 2. cbn [flat_map snd]. fold (env_refs e2).
  ceq.
Qed.

Lemma inv_del c n x s LP LN :
  inv c -> lookup n (c_env c) = Some x -> removable (c_env c) n x -> kext (c_rt c) s ->
  ceq (c_lost c) (LP ++ LN) ->
  (forall o, In o LP -> exists q k, l_kind s o = OPart q k) ->
  (forall o, In o LN -> forall q k, l_kind s o <> OPart q k) ->
  WF s (c_user c ++ LP) (env_refs (unset n (c_env c)) ++ LN) ->
  inv (del_obj c n s).
Proof.
  intros I H R X L1 L2 L3 W. destruct (lookup_split _ _ H) as (e1 & e2 & E1 & E2 & _).
  pose proof (i_env I) as O. pose proof (i_names I) as N. pose proof (i_fresh I) as Fr.
  rewrite E1 in O, N, R, Fr. unfold del_obj. rewrite E2 in *.
  constructor; cbn [c_rt c_user c_env c_lost c_fresh].
  - exists LP, LN. auto.
  - pose proof (rest_ok e1 e2 O R) as O'. intros k y Hy.
    eapply obj_ok_kext with (e := e1 ++ e2); [exact X| |auto|eapply O'; eauto].
    destruct (i_lost I) as (? & ? & _ & _ & _ & W0). intros z Hz. apply (wf_lt W0), (wf_E W0).
    apply in_app_iff. left. rewrite E1. eapply ceq_In; [intro; symmetry; apply env_refs_split|].
    apply in_app_iff. right. apply in_flat_map. exists (k, y). auto.
  - rewrite map_app in *. cbn in N. eapply NoDup_remove_1; eauto.
  - intros k Hk. apply Fr. rewrite map_app in *. apply in_app_iff. cbn. apply in_app_iff in Hk. tauto.
Qed.

Lemma inv_set_plan c n p p' s LP LN :
  inv c -> lookup n (c_env c) = Some (CPlan p) -> kext (c_rt c) s ->
  ceq (c_lost c) (LP ++ LN) ->
  (forall o, In o LP -> exists q k, l_kind s o = OPart q k) ->
  (forall o, In o LN -> forall q k, l_kind s o <> OPart q k) ->
  plan_ok s (kspace (unset n (c_env c))) p' ->
  WF s (c_user c ++ LP) (planner_refs p' ++ env_refs (unset n (c_env c)) ++ LN) ->
  inv (set_obj c n (CPlan p') s).
Proof.
  intros I H X L1 L2 L3 P W. destruct (lookup_split _ _ H) as (e1 & e2 & E1 & E2 & E3).
  pose proof (i_env I) as O. pose proof (i_names I) as N. pose proof (i_fresh I) as Fr.
  rewrite E1 in O, N, Fr. unfold set_obj. rewrite E3. rewrite E2 in *.
  constructor; cbn [c_rt c_user c_env c_lost c_fresh].
  - exists LP, LN. split; [auto|]. split; [auto|]. split; [auto|].
    eapply WF_ceq; [|exact W]. intro x. pose proof (env_refs_split e1 e2 n (CPlan p') x) as Z. cbn [obj_refs] in Z.
    cnt_simp. lia.
  - assert (KM : forall m q, kspace (e1 ++ e2) m q -> kspace (e1 ++ (n, CPlan p') :: e2) m q).
    { intros m q (k & Hk & Hq). exists k. split; auto. rewrite in_app_iff in *. cbn. tauto. }
    intros k y Hy. apply in_app_iff in Hy. cbn in Hy.
    assert (D : (k, y) = (n, CPlan p') \/ In (k, y) (e1 ++ e2)) by (rewrite in_app_iff; destruct Hy as [?|[?|?]]; auto).
    destruct D as [D|D].
    + injection D as -> ->. cbn. destruct P as [P1 P2 P3 P4 P5 P6 P7]. constructor; auto.
      eapply Forall_impl; [|exact P7]. intros el ((q1 & k1 & A1 & A2) & B). split; auto. exists q1, k1. auto.
    + assert (R : removable (e1 ++ (n, CPlan p) :: e2) n (CPlan p)) by (intros m e; congruence).
      pose proof (rest_ok e1 e2 O R) as O'.
      eapply obj_ok_kext with (e := e1 ++ e2); [exact X| |auto|eapply O'; eauto].
      destruct (i_lost I) as (? & ? & _ & _ & _ & W0). intros z Hz. apply (wf_lt W0), (wf_E W0).
      apply in_app_iff. left. rewrite E1. eapply ceq_In; [intro; symmetry; apply env_refs_split|].
      apply in_app_iff. right. apply in_flat_map. exists (k, y). auto.
  - rewrite map_app in *. exact N.
  - intros k Hk. apply Fr. rewrite map_app in *. exact Hk.
Qed.

Lemma cnt_remove_one o l : In o l -> forall x, cnt l x = (if Nat.eq_dec o x then 1 else 0) + cnt (remove_one o l) x.
Proof.
  induction l as [|y l IH]; [intros []|]. intros H x. cbn [remove_one].
  destruct (o =? y) eqn:e.
  - apply Nat.eqb_eq in e. subst y. cnt_simp. lia.
  - apply Nat.eqb_neq in e. destruct H as [H|H]; [congruence|]. cnt_simp. rewrite (IH H x). lia.
Qed.

Lemma takes_user o user LP E : In o user -> takes o (user ++ LP) E (remove_one o user ++ LP) E.
Proof.
  intros H. pose proof (cnt_remove_one _ _ H) as C.
  repeat split; intro x; cnt_simp; try rewrite (C x); lia.
Qed.

Lemma kext_parts s s' LP U E : kext s s' -> WF s U E -> incl LP U ->
  (forall o, In o LP -> exists q k, l_kind s o = OPart q k) ->
  (forall o, In o LP -> exists q k, l_kind s' o = OPart q k).
Proof.
  intros [_ K] W I H o Ho. rewrite K; auto. apply (wf_U W). auto.
Qed.
Lemma kext_nonparts s s' LN U E : kext s s' -> WF s U E -> incl LN E ->
  (forall o, In o LN -> forall q k, l_kind s o <> OPart q k) ->
  (forall o, In o LN -> forall q k, l_kind s' o <> OPart q k).
Proof.
  intros [_ K] W I H o Ho. rewrite K; auto. apply (wf_lt W), (wf_E W). auto.
Qed.

(** ** Every legal step preserves the invariant and is never an illegal call *)

Lemma inv_init : inv client_init.
Proof.
  constructor; cbn; try tauto; [|intros ? ? []|constructor].
  exists [], []. repeat split; try tauto; try (intros ? []); cbn.
  all: unfold alive; cbn; try congruence; try tauto; try (intros ? []).
Qed.

Theorem step_good c a : inv c -> legal c a -> good (step c a).
Proof.
  intros I L. pose proof I as I0. destruct I0 as [(LP & LN & L1 & L2 & L3 & W) O N Fr].
  set (s := c_rt c) in *. set (E := env_refs (c_env c) ++ LN) in *.
  assert (CE : closed s E).
  { apply closed_app; [apply env_closed; exact O|apply closed_pin, pin_nonpart, L3]. }
  assert (IP : incl LP (c_user c ++ LP)) by (intros x; rewrite in_app_iff; auto).
  assert (IN : incl LN E) by (intros x; unfold E; rewrite in_app_iff; auto).
  assert (KP : forall s', kext s s' -> forall o, In o LP -> exists q k, l_kind s' o = OPart q k).
  { intros s' X. eapply kext_parts; eauto. }
  assert (KN : forall s', kext s s' -> forall o, In o LN -> forall q k, l_kind s' o <> OPart q k).
  { intros s' X. eapply kext_nonparts; eauto. }
  (* a new object given to the user *)
  assert (GIVE : forall o s', kext s s' -> WF s' (c_user c ++ LP) (o :: E) -> inv (give_user c [o] s')).
  { intros o s' X W'. eapply inv_same_env with (LP := LP) (LN := LN); eauto.
    eapply WF_ceqU; [|apply WF_move, W']. ceq. }
  assert (TAKE : forall o s', kext s s' -> WF s' (remove_one o (c_user c) ++ LP) E -> inv (take_user c o s')).
  { intros o s' X W'. eapply inv_same_env with (LP := LP) (LN := LN); eauto. }
  assert (NEW : forall x s', kext s s' -> obj_ok s' ((c_fresh c, x) :: c_env c) x ->
     WF s' (c_user c ++ LP) (obj_refs x ++ E) -> inv (new_obj c x s')).
  { intros x s' X Ox W'. eapply inv_new with (LP := LP) (LN := LN); eauto. }
  assert (AE : forall n x y, lookup n (c_env c) = Some x -> In y (obj_refs x) -> In y E).
  { intros n x y Hn Hy. unfold E. apply in_app_iff. left. apply in_flat_map. exists (n, x).
    split; auto. apply lookup_In, Hn. }
  assert (OK : forall n x, lookup n (c_env c) = Some x -> obj_ok s (c_env c) x).
  { intros n x Hn. eapply O. apply lookup_In, Hn. }
  (* splitting off one object *)
  assert (SPLIT : forall n x, lookup n (c_env c) = Some x -> removable (c_env c) n x ->
     ceq E (obj_refs x ++ (env_refs (unset n (c_env c)) ++ LN)) /\
     env_ok s (unset n (c_env c)) /\ closed s (env_refs (unset n (c_env c)) ++ LN)).
  { intros n x Hn R. destruct (lookup_split _ _ Hn) as (e1 & e2 & E1 & E2 & _).
    rewrite E1 in O, R. rewrite E2. pose proof (rest_ok e1 e2 O R) as O'. split; [|split; auto].
    - unfold E. rewrite E1. intro y. pose proof (env_refs_split e1 e2 n x y). cnt_simp. lia.
    - apply closed_app; [apply env_closed, O'|apply closed_pin, pin_nonpart, L3]. }
  (* a planner and the rest *)
  assert (PLAN : forall n p, lookup n (c_env c) = Some (CPlan p) ->
     WF s (c_user c ++ LP) (planner_refs p ++ (env_refs (unset n (c_env c)) ++ LN)) /\
     closed s (env_refs (unset n (c_env c)) ++ LN) /\
     plan_ok s (kspace (unset n (c_env c))) p /\
     (forall e q, In e (p_mats p) -> kspace (unset n (c_env c)) (pm_mat e) q -> In q (env_refs (unset n (c_env c)) ++ LN))).
  { intros n p Hn. assert (R : removable (c_env c) n (CPlan p)) by (intros m e; congruence).
    destruct (SPLIT n _ Hn R) as (S1 & S2 & S3). split; [eapply WF_ceq; [exact S1|exact W]|]. split; [exact S3|].
    split.
    - pose proof (OK _ _ Hn) as P. cbn in P. destruct P as [P1 P2 P3 P4 P5 P6 P7]. constructor; auto.
      eapply Forall_impl; [|exact P7]. intros e ((q1 & k1 & A1 & A2) & B). split; auto. exists q1, k1. split; auto.
      destruct (lookup_split _ _ Hn) as (e1 & e2 & E1 & E2 & _). rewrite E1 in A2. rewrite E2.
      eapply kspace_removed; [exact A2|]. left. congruence.
    - intros e q _ Hq. apply in_app_iff. left. eapply kspace_refs; eauto. }
  assert (SETP : forall n p p' s', lookup n (c_env c) = Some (CPlan p) -> kext s s' ->
     plan_ok s' (kspace (unset n (c_env c))) p' ->
     WF s' (c_user c ++ LP) (planner_refs p' ++ (env_refs (unset n (c_env c)) ++ LN)) ->
     inv (set_obj c n (CPlan p') s')).
  { intros n p p' s' Hn X P W'. eapply inv_set_plan with (LP := LP) (LN := LN); eauto. }
  assert (OTHER : forall n p m y, lookup n (c_env c) = Some (CPlan p) -> lookup m (c_env c) = Some y ->
     (forall q, y <> CPlan q) -> incl (obj_refs y) (env_refs (unset n (c_env c)) ++ LN)).
  { intros n p m y Hn Hm D z Hz. apply in_app_iff. left.
    destruct (lookup_split _ _ Hn) as (e1 & e2 & E1 & E2 & _). rewrite E2.
    apply lookup_In in Hm. rewrite E1 in Hm. apply in_flat_map. exists (m, y). split; auto.
    rewrite in_app_iff in *. cbn in Hm. destruct Hm as [?|[Hm|?]]; auto. exfalso. apply (D p). congruence. }
  destruct a; cbn [step legal] in L |- *; fold s in L.
  - (* ASpace *) apply run_wp. fold s. eapply wp_create; [exact W|congruence|].
    intros o s' g _ _ _ _ _ W'. apply GIVE; auto. apply g.
  - apply run_wp. fold s. eapply wp_create; [exact W|congruence|].
    intros o s' g _ _ _ _ _ W'. apply GIVE; auto. apply g.
  - destruct L as ((A1 & A2) & A3 & A4). apply run_wp. fold s.
    eapply wp_create_region; [exact W|auto|auto|]. intros r s' g _ _ _ _ _ _ _ W'. apply GIVE; auto. apply g.
  - destruct L as ((A1 & A2) & A3 & A4). apply run_wp. fold s.
    eapply wp_create_partition; [exact W|auto|auto|auto|]. intros r s' g _ _ _ _ _ W'. apply GIVE; auto. apply g.
  - apply run_wp. fold s. eapply wp_share; [exact W|auto|]. intros s' g _ W'. apply GIVE; auto. apply g.
  - destruct L as (A1 & A2 & A3). apply run_wp. fold s.
    eapply wp_destroy_space; [exact W|auto|auto|apply takes_user, A1|exact CE|]. intros s' X _ _ W'. apply TAKE; auto.
  - destruct L as (A1 & A2 & A3). apply run_wp. fold s.
    eapply wp_destroy_fields; [exact W|auto|auto|apply takes_user, A1|]. intros s' X _ _ W'. apply TAKE; auto.
  - destruct L as (A1 & A2 & A3). apply run_wp. fold s.
    eapply wp_destroy_region; [exact W|auto|eauto|apply takes_user, A1|]. intros s' X _ _ W'. apply TAKE; auto.
  - destruct L as (A1 & A2 & (q & k & A3)). apply run_wp. fold s.
    eapply wp_destroy_partition; [exact W|auto|eauto|apply takes_user, A1|]. intros s' X _ _ W'. apply TAKE; auto.
  - (* AVec *) apply run_wp. fold s. eapply vec_ctor_partition_spec; [exact W|exact L|].
    intros v s' g Ov _ W'. apply NEW; auto. apply g.
  - destruct L as (A1 & A2 & (k & A3)). apply run_wp. fold s.
    destruct A2 as (B1 & q & k' & B2 & B3 & B4). assert (k' = k) by congruence. subst k'.
    destruct A1 as (C1 & C2 & C3 & C4 & C5 & C6).
    eapply vec_ctor_logical_spec; [exact W|auto|unfold region_ok; auto|auto|auto| |].
    { exists k. auto. }
    intros v' s' g _ Ov _ _ W'. apply NEW; auto. apply g.
  - destruct L as (v0 & Hv). rewrite Hv. apply run_wp. fold s.
    eapply vec_copy_spec; [exact W| |apply (OK _ _ Hv)|].
    { intros x Hx. apply (wf_E W). eapply AE; eauto. }
    intros s' g _ Ov W'. apply NEW; auto. apply g.
  - apply run_wp. fold s. eapply coo_ctor_spec; [exact W|exact L|].
    intros s' g _ Om W'. apply NEW; auto. apply g.
  - destruct L as (A1 & A2). apply run_wp. fold s. eapply csr_ctor_spec; [exact W|exact A1|exact A2|].
    intros s' g _ Om W'. apply NEW; auto. apply g.
  - destruct L as (m0 & Hm). rewrite Hm. apply run_wp. fold s.
    eapply mat_copy_spec; [exact W| |apply (OK _ _ Hm)|].
    { intros x Hx. apply (wf_E W). eapply AE; eauto. }
    intros s' g _ Om W'. apply NEW; auto. apply g.
  - (* APlanner *) cbn [good]. apply NEW; [apply kext_refl| |exact W]. cbn. apply planner_ctor_ok.
  - destruct L as ((p0 & Hp) & (v0 & Hv)). rewrite Hp, Hv. apply run_wp. fold s.
    destruct (PLAN _ _ Hp) as (Q1 & Q2 & Q3 & Q4).
    eapply add_sol_spec; [exact Q1|exact Q3|apply (OK _ _ Hv)| |exact Q2|exact Q4|].
    { apply (OTHER _ _ _ _ Hp Hv). congruence. }
    intros p' s' X P' _ W'. eapply SETP; eauto.
  - destruct L as ((p0 & Hp) & (v0 & Hv)). rewrite Hp, Hv. apply run_wp. fold s.
    destruct (PLAN _ _ Hp) as (Q1 & Q2 & Q3 & Q4).
    eapply add_rhs_spec; [exact Q1|exact Q3|apply (OK _ _ Hv)| |exact Q2|exact Q4|].
    { apply (OTHER _ _ _ _ Hp Hv). congruence. }
    intros p' s' X P' _ W'. eapply SETP; eauto.
  - destruct L as (p0 & Hp). rewrite Hp. apply run_wp. fold s.
    destruct (PLAN _ _ Hp) as (Q1 & Q2 & Q3 & Q4).
    eapply allocate_spec; [exact Q1|exact Q3|exact Q2|exact Q4|].
    intros p' s' X P' _ W'. eapply SETP; eauto.
  - destruct L as ((p0 & Hp) & (m0 & Hm)). rewrite Hp, Hm. apply run_wp. fold s.
    destruct (PLAN _ _ Hp) as (Q1 & Q2 & Q3 & Q4).
    eapply add_mat_spec; [exact Q1|exact Q3|apply (OK _ _ Hm)| | |].
    { apply (OTHER _ _ _ _ Hp Hm). congruence. }
    { exists m0. split; auto. destruct (lookup_split _ _ Hp) as (e1 & e2 & E1 & E2 & _). rewrite E2.
      apply lookup_In in Hm. rewrite E1 in Hm. rewrite in_app_iff in *. cbn in Hm.
      destruct Hm as [?|[Hm|?]]; auto. congruence. }
    intros p' s' X P' _ W'. eapply SETP; eauto.
  - (* ADelete *) destruct L as (y & Hy & R). rewrite Hy.
    destruct (SPLIT _ _ Hy R) as (S1 & S2 & S3).
    assert (WD : WF s (c_user c ++ LP) (obj_refs y ++ (env_refs (unset x (c_env c)) ++ LN))) by (eapply WF_ceq; eauto).
    apply run_wp. fold s.
    assert (FIN : forall s', kext s s' -> l_kind s' = l_kind s -> l_next s' = l_next s ->
      WF s' (c_user c ++ LP) (env_refs (unset x (c_env c)) ++ LN) -> inv (del_obj c x s')).
    { intros s' X _ _ W'. eapply inv_del with (LP := LP) (LN := LN); eauto. }
    pose proof (OK _ _ Hy) as Oy. destruct y as [v|m|p]; cbn [dtor obj_refs obj_ok] in *.
    + eapply vec_dtor_spec; eauto.
    + eapply mat_dtor_spec; eauto.
    + eapply planner_dtor_spec; eauto.
  - (* ADomainFromRange *) destruct L as ((m0 & Hm) & Ld & Lr). rewrite Hm. apply run_wp. fold s.
    assert (AM : forall x, In x (mat_refs m0) -> alive s x) by (intros x Hx; apply (wf_E W); eapply AE; eauto).
    pose proof (OK _ _ Hm) as Om. cbn in Om. destruct (mat_live m0 W AM Om) as [LK _].
    unfold domain_partition_from_range_partition.
    bnd. eapply kernel_from_range_spec; [exact W|exact AM|exact Om|exact Lr|].
    intros kp s1 (g1 & e1 & N1 & (c1 & K1) & _) Lk W1.
    bnd. eapply domain_from_kernel_spec; [exact W1|apply (proj2 g1), LK| |exact Lk|].
    { destruct Ld as [A B]. split; [apply (proj2 g1), A|]. rewrite (proj2 (proj1 g1)); auto. apply (wf_lt W), A. }
    intros dp s2 (g2 & e2 & N2 & (c2 & K2) & _) Lk2 W2. apply wp_ret. cbn [fst snd].
    assert (X : kext s s2) by (eapply kext_trans; [apply g1|apply g2]).
    unfold lose, give_user; cbn [c_rt c_user c_env c_lost c_fresh].
    eapply inv_same_env with (LP := kp :: LP) (LN := LN); [exact I|exact X| | |exact (KN _ X)|].
    + intro z. pose proof (L1 z). cnt_simp. lia.
    + intros o [<-|Ho]; [|apply KP; auto]. exists (rg_is (kernel_region m0)), c1.
      rewrite (proj2 (proj1 g2)); [exact K1|]. lia.
    + eapply WF_ceqU; [|apply WF_move, WF_move, W2]. ceq.
  - destruct L as ((m0 & Hm) & Ld & Lr). rewrite Hm. apply run_wp. fold s.
    assert (AM : forall x, In x (mat_refs m0) -> alive s x) by (intros x Hx; apply (wf_E W); eapply AE; eauto).
    pose proof (OK _ _ Hm) as Om. cbn in Om. destruct (mat_live m0 W AM Om) as [LK _].
    unfold range_partition_from_domain_partition.
    bnd. eapply kernel_from_domain_spec; [exact W|exact AM|exact Om|exact Lr|].
    intros kp s1 (g1 & e1 & N1 & (c1 & K1) & _) Lk W1.
    bnd. eapply range_from_kernel_spec; [exact W1| | | |exact Lk|].
    { intros x Hx. apply (proj2 g1), AM, Hx. }
    { eapply mat_ok_kext; [apply g1| |exact Om]. intros x Hx. apply (wf_lt W), AM, Hx. }
    { destruct Ld as [A B]. split; [apply (proj2 g1), A|]. rewrite (proj2 (proj1 g1)); auto. apply (wf_lt W), A. }
    intros dp' s2 (g2 & e2 & N2 & (c2 & K2) & _) Lk2 W2. apply wp_ret. cbn [fst snd].
    assert (X : kext s s2) by (eapply kext_trans; [apply g1|apply g2]).
    unfold lose, give_user; cbn [c_rt c_user c_env c_lost c_fresh].
    eapply inv_same_env with (LP := kp :: LP) (LN := LN); [exact I|exact X| | |exact (KN _ X)|].
    + intro z. pose proof (L1 z). cnt_simp. lia.
    + intros o [<-|Ho]; [|apply KP; auto]. exists (rg_is (kernel_region m0)), c1.
      rewrite (proj2 (proj1 g2)); [exact K1|]. lia.
    + eapply WF_ceqU; [|apply WF_move, WF_move, W2]. ceq.
  - (* AStencilCoo *) apply run_wp. fold s. eapply create_coo_stencil_spec; [exact W|].
    intros m ip s' is fs mr cs X Om Kip KNn W'. cbn [fst snd]. unfold lose, new_obj; cbn [c_rt c_user c_env c_lost c_fresh].
    eapply inv_new with (LP := ip :: LP) (LN := [is; fs; mr; cs] ++ LN); [exact I|exact X|exact Om| | | |].
    + intro z. pose proof (L1 z). cnt_simp. lia.
    + intros o [<-|Ho]; [exact Kip|apply KP; auto].
    + intros o Ho. apply in_app_iff in Ho. destruct Ho as [Ho|Ho]; [apply KNn, Ho|apply KN; auto].
    + eapply WF_ceqU with (U := ip :: (c_user c ++ LP)); [ceq|]. apply WF_move.
      eapply WF_ceq; [|exact W']. unfold E. cbn [obj_refs]. ceq.
  - apply run_wp. fold s. eapply create_csr_stencil_spec; [exact W|].
    intros m kp rp s' ks rs kf rf kr rr cs X Om Kkp Krp KNn W'. cbn [fst snd]. unfold lose, new_obj; cbn [c_rt c_user c_env c_lost c_fresh].
    eapply inv_new with (LP := kp :: rp :: LP) (LN := [ks; rs; kf; rf; kr; rr; cs] ++ LN); [exact I|exact X|exact Om| | | |].
    + intro z. pose proof (L1 z). cnt_simp. lia.
    + intros o [<-|[<-|Ho]]; [exact Kkp|exact Krp|apply KP; auto].
    + intros o Ho. apply in_app_iff in Ho. destruct Ho as [Ho|Ho]; [apply KNn, Ho|apply KN; auto].
    + eapply WF_ceqU with (U := kp :: rp :: (c_user c ++ LP)); [ceq|]. apply WF_move, WF_move.
      eapply WF_ceq; [|exact W']. unfold E. cbn [obj_refs]. ceq.
  - apply run_wp. fold s. eapply coo_laplacian_spec; [exact W|exact L|exact CE|].
    intros m s' X Om W'. apply NEW; auto.
  - apply run_wp. fold s. eapply csr_laplacian_spec; [exact W|exact L|exact CE|].
    intros m s' X Om W'. apply NEW; auto.
  - apply run_wp. fold s. eapply print_spec; [exact W|exact L|].
    intros s' X _ W'. apply (@inv_same_env c s' (c_user c) (c_lost c) LP LN); auto.
  - (* AKernelFromRange *) destruct L as ((m0 & Hm) & Lr). rewrite Hm. apply run_wp. fold s.
    assert (AM : forall x, In x (mat_refs m0) -> alive s x) by (intros x Hx; apply (wf_E W); eapply AE; eauto).
    pose proof (OK _ _ Hm) as Om. cbn in Om.
    eapply kernel_from_range_spec; [exact W|exact AM|exact Om|exact Lr|].
    intros kp1 s1 (g1 & _) _ W1. apply GIVE; auto. apply g1.
  - (* AKernelFromDomain *) destruct L as ((m0 & Hm) & Lr). rewrite Hm. apply run_wp. fold s.
    assert (AM : forall x, In x (mat_refs m0) -> alive s x) by (intros x Hx; apply (wf_E W); eapply AE; eauto).
    pose proof (OK _ _ Hm) as Om. cbn in Om.
    eapply kernel_from_domain_spec; [exact W|exact AM|exact Om|exact Lr|].
    intros kp1 s1 (g1 & _) _ W1. apply GIVE; auto. apply g1.
  - (* ADomainFromKernel *) destruct L as ((m0 & Hm) & Ls & Lr). rewrite Hm. apply run_wp. fold s.
    assert (AM : forall x, In x (mat_refs m0) -> alive s x) by (intros x Hx; apply (wf_E W); eapply AE; eauto).
    pose proof (OK _ _ Hm) as Om. cbn in Om. destruct (mat_live m0 W AM Om) as [LK _].
    eapply domain_from_kernel_spec; [exact W|apply LK|exact Ls|exact Lr|].
    intros kp1 s1 (g1 & _) _ W1. apply GIVE; auto. apply g1.
  - (* ARangeFromKernel *) destruct L as ((m0 & Hm) & Ls & Lr). rewrite Hm. apply run_wp. fold s.
    assert (AM : forall x, In x (mat_refs m0) -> alive s x) by (intros x Hx; apply (wf_E W); eapply AE; eauto).
    pose proof (OK _ _ Hm) as Om. cbn in Om.
    eapply range_from_kernel_spec; [exact W|exact AM|exact Om|exact Ls|exact Lr|].
    intros kp1 s1 (g1 & _) _ W1. apply GIVE; auto. apply g1.
Qed.

Theorem history_good h : forall c, inv c -> legal_history c h -> good (run_history c h).
Proof.
  induction h as [|a h IH]; cbn; intros c I L; auto.
  destruct L as [L1 L2]. pose proof (step_good _ I L1) as G. destruct (step c a) as [c'| |] eqn:e; cbn in *; auto.
Qed.
