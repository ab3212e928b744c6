(** OwnershipKinds: kinds of existing objects never change, and the parent of a partition is an index space. *)
Require Import List Arith Bool Lia.
From Verif Require Import Ownership OwnershipSpec OwnershipFacts OwnershipPlanner OwnershipInv.
Import ListNotations.
Set Implicit Arguments.

(** ** Kinds of existing objects never change *)

(** The parent of every partition, alive or not, is an index space. *)
Definition parents_ok (s : lstate) : Prop :=
  forall p q k, p < l_next s -> l_kind s p = OPart q k -> q < l_next s /\ l_kind s q = OSpace.
Definition kx (s s' : lstate) : Prop :=
  kext s s' /\ ((forall o, alive s o -> o < l_next s) -> parents_ok s ->
                (forall o, alive s' o -> o < l_next s') /\ parents_ok s').
Lemma kx_refl s : kx s s. Proof. split; auto using kext_refl. Qed.
Lemma kx_trans s1 s2 s3 : kx s1 s2 -> kx s2 s3 -> kx s1 s3.
Proof.
  intros [A B] [C D]. split; [eapply kext_trans; eauto|]. intros H1 H2. destruct (B H1 H2). auto.
Qed.
Definition kmono {A} (m : rt A) : Prop := forall s a s', m s = ROk a s' -> kx s s'.
Lemma kmono_ret {A} (a : A) : kmono (ret a).
Proof. intros s b s' H. injection H as _ <-. apply kx_refl. Qed.
Lemma kmono_bind {A B} (m : rt A) (f : A -> rt B) : kmono m -> (forall a, kmono (f a)) -> kmono (bind m f).
Proof.
  intros Hm Hf s b s' H. unfold bind in H. destruct (m s) as [a s1| |] eqn:e; try discriminate.
  eapply kx_trans; [eapply Hm; eauto|eapply Hf; eauto].
Qed.
Lemma kmono_assert b : kmono (assert_ b).
Proof. intros s a s' H. unfold assert_ in H. destruct b; [injection H as _ <-; apply kx_refl|discriminate]. Qed.
Lemma kmono_need o : kmono (need o).
Proof. intros s a s' H. unfold need in H. destruct (aliveb s o); [injection H as _ <-; apply kx_refl|discriminate]. Qed.
Lemma create_kx k s a s' : rt_create k s = ROk a s' -> (forall q c, k = OPart q c -> q < l_next s /\ l_kind s q = OSpace) ->
  kext s s' /\ ((forall o, alive s o -> o < l_next s) -> parents_ok s ->
                (forall o, alive s' o -> o < l_next s') /\ parents_ok s').
Proof.
  intros H Hk. injection H as _ <-. split; [split; cbn; [lia|]; intros o Ho; apply fupd_other; lia|].
  intros L P. split.
  - intros o. unfold alive. cbn. unfold fupd. destruct (Nat.eqb_spec o (l_next s)); [lia|]. intros z. apply L in z. lia.
  - intros p q c. cbn. unfold fupd at 1. destruct (Nat.eqb_spec p (l_next s)) as [->|ne].
    + intros _ e. destruct (Hk _ _ e) as [A B]. split; [lia|]. rewrite fupd_other by lia. exact B.
    + intros lt e. destruct (P p q c) as [A B]; [lia|exact e|]. split; [lia|]. rewrite fupd_other by lia. exact B.
Qed.
Lemma kmono_create k : match k with OPart _ _ => False | _ => True end -> kmono (rt_create k).
Proof. intros Hk s a s' H. eapply create_kx; eauto. intros q c ->. destruct Hk. Qed.
Lemma kmono_same {A} (m : rt A) :
  (forall s a s', m s = ROk a s' -> l_kind s' = l_kind s /\ l_next s' = l_next s /\ forall o, alive s' o -> alive s o) ->
  kmono m.
Proof.
  intros H s a s' E. destruct (H _ _ _ E) as (E1 & E2 & E3). split; [split; [lia|]; intros; congruence|].
  intros L P. split; [intros o Ho; rewrite E2; auto|]. intros p q k. rewrite E1, E2. apply P.
Qed.
Lemma kmono_drop o : kmono (rt_drop o).
Proof.
  apply kmono_bind; [apply kmono_need|]. intros _. apply kmono_same. intros s a s' H. injection H as _ <-.
  split; [auto|]. split; [auto|]. intros x. unfold alive; cbn. unfold fupd. destruct (Nat.eqb_spec x o); [subst; lia|auto].
Qed.
Lemma kmono_share o : kmono (rt_share o).
Proof.
  apply kmono_same. intros s a s' H. unfold rt_share, bind, need in H.
  destruct (aliveb s o) eqn:e; [|discriminate]. apply aliveb_true in e. injection H as _ <-.
  split; [auto|]. split; [auto|]. intros x. unfold alive; cbn. unfold fupd. destruct (Nat.eqb_spec x o); [subst; auto|auto].
Qed.
Lemma kmono_part q k : kmono (rt_create_partition q k).
Proof.
  intros s a s' H. unfold rt_create_partition, bind, need in H.
  destruct (aliveb s q) eqn:e1; [|discriminate]. apply aliveb_true in e1.
  destruct (aliveb s k) eqn:e2; [|discriminate].
  destruct (l_kind s q) eqn:e3; try discriminate.
  assert (C : (forall o, alive s o -> o < l_next s) -> q < l_next s /\ l_kind s q = OSpace) by auto.
  injection H as _ <-. split; [split; cbn; [lia|]; intros o Ho; apply fupd_other; lia|].
  intros L P. refine (proj2 (@create_kx (OPart q k) s _ _ eq_refl _) L P).
  intros q' c' e. injection e as <- <-. auto.
Qed.
Lemma kmono_mapM {A B} (f : A -> rt B) : (forall a, kmono (f a)) -> forall l, kmono (mapM f l).
Proof.
  intros H. induction l; cbn; [apply kmono_ret|]. apply kmono_bind; auto. intros b. apply kmono_bind; auto.
  intros. apply kmono_ret.
Qed.
Lemma kmono_iterM {A} (f : A -> rt unit) : (forall a, kmono (f a)) -> forall l, kmono (iterM f l).
Proof. intros H. induction l; cbn; [apply kmono_ret|]. apply kmono_bind; auto. Qed.

Ltac km1 :=
  first
    [ apply kmono_ret | apply kmono_assert | apply kmono_need | apply kmono_create; exact I | apply kmono_drop
    | apply kmono_share
    | apply kmono_bind; [|intros]
    | apply kmono_mapM; intros | apply kmono_iterM; intros
    | apply kmono_same; intros ? ? ?; cbn;
      repeat match goal with |- context [match ?x with _ => _ end] => destruct x end;
      let H := fresh in intros H; first [discriminate H | injection H as _ <-; cbn; auto] ].

Lemma kmono_region is fs : kmono (rt_create_logical_region is fs). Proof. unfold rt_create_logical_region. repeat km1. Qed.
Lemma kmono_dspace o : kmono (rt_destroy_index_space o).
Proof.
  unfold rt_destroy_index_space. apply kmono_bind; [repeat km1|intros _]. apply kmono_bind; [repeat km1|intros _].
  apply kmono_same. intros s a s' H. injection H as _ <-. destruct (aliveb s o); cbn; auto.
  split; [auto|]. split; [auto|]. intros x. unfold alive. cbn. destruct (is_part_of o (l_kind s x)); auto; lia.
Qed.
Lemma kmono_dfields o : kmono (rt_destroy_field_space o). Proof. unfold rt_destroy_field_space. repeat km1. Qed.
Lemma kmono_dregion o : kmono (rt_destroy_logical_region o). Proof. unfold rt_destroy_logical_region. repeat km1. Qed.
Lemma kmono_dpart o : kmono (rt_destroy_index_partition o). Proof. unfold rt_destroy_index_partition. repeat km1. Qed.
Lemma kmono_parent o : kmono (rt_parent_space o). Proof. unfold rt_parent_space. repeat km1. Qed.
Lemma kmono_color o : kmono (rt_color_space o). Proof. unfold rt_color_space. repeat km1. Qed.
Lemma kmono_lp r p : kmono (rt_logical_partition r p). Proof. unfold rt_logical_partition. repeat km1. Qed.

Ltac km2 := first [apply kmono_region|apply kmono_part|apply kmono_dspace|apply kmono_dfields|apply kmono_dregion
  |apply kmono_dpart|apply kmono_parent|apply kmono_color|apply kmono_lp|km1
  | match goal with |- kmono (if ?b then _ else _) => destruct b end
  | match goal with |- kmono (match ?b with _ => _ end) => destruct b end ].
Ltac km := repeat km2.

Lemma kmono_vec_dtor v : kmono (vec_dtor v). Proof. unfold vec_dtor. km. Qed.
Lemma kmono_vec_copy v : kmono (vec_copy v). Proof. unfold vec_copy. km. Qed.
Lemma kmono_vec_log v : kmono (vec_ctor_logical v). Proof. unfold vec_ctor_logical. km. Qed.
Lemma kmono_push g l v : kmono (push_back g l v).
Proof.
  unfold push_back. apply kmono_bind; [apply kmono_vec_copy|intros].
  destruct g; km; auto using kmono_vec_copy, kmono_vec_dtor.
Qed.
Lemma kmono_emplace g l v : kmono (emplace_back g l v).
Proof.
  unfold emplace_back. apply kmono_bind; [apply kmono_vec_log|intros].
  destruct g; km; auto using kmono_vec_copy, kmono_vec_dtor.
Qed.
Lemma kmono_row g lp : forall rows j, kmono (workspace_row g j rows lp).
Proof. induction rows; intros j; cbn; km; auto using kmono_emplace. Qed.
Lemma kmono_loop g wf : forall sps pts i regs lps rows, kmono (workspace_loop g i wf sps pts regs lps rows).
Proof. induction sps; intros [|pt pts] i regs lps rows; cbn; km; auto using kmono_row. Qed.
Lemma kmono_canonical l i o : kmono (canonical l i o). Proof. unfold canonical. km. Qed.
Lemma kmono_krange m p : kmono (kernel_from_range m p). Proof. unfold kernel_from_range. km. Qed.
Lemma kmono_kdomain m p : kmono (kernel_from_domain m p). Proof. unfold kernel_from_domain. km. Qed.
Lemma kmono_dkernel m q p : kmono (domain_from_kernel m q p). Proof. unfold domain_from_kernel. km. Qed.
Lemma kmono_rkernel m q p : kmono (range_from_kernel m q p). Proof. unfold range_from_kernel. km. Qed.
Lemma kmono_share_region r : kmono (share_region r). Proof. unfold share_region. km. Qed.
Lemma kmono_unshare_region r : kmono (unshare_region r). Proof. unfold unshare_region. km. Qed.

Ltac kxx := repeat first [apply kmono_vec_dtor|apply kmono_vec_copy|apply kmono_vec_log|apply kmono_push|apply kmono_emplace
  |apply kmono_row|apply kmono_loop|apply kmono_canonical|apply kmono_krange|apply kmono_kdomain|apply kmono_dkernel
  |apply kmono_rkernel|apply kmono_share_region|apply kmono_unshare_region|km2].

Lemma step_kx c a c' : step c a = COk c' -> kx (c_rt c) (c_rt c').
Proof.
  assert (R : forall A (m : rt A) k, kmono m -> (forall x s, c_rt (k x s) = s) ->
    run m c k = COk c' -> kx (c_rt c) (c_rt c')).
  { intros A m k Hm Hk H. unfold run in H. destruct (m (c_rt c)) as [x s'| |] eqn:e; try discriminate.
    injection H as <-. rewrite Hk. eapply Hm; eauto. }
  assert (Z : forall d, COk c = COk d -> kx (c_rt c) (c_rt d)) by (intros d H; injection H as <-; apply kx_refl).
  destruct a; cbn [step];
    repeat match goal with
      | |- context [match lookup ?n ?e with _ => _ end] => destruct (lookup n e) as [[?|?|?]|]
      end; auto;
    try (eapply R; [|reflexivity];
      unfold rt_create_index_space, rt_create_field_space, vec_ctor_partition, coo_ctor, csr_ctor, mat_copy, add_sol_vector,
        add_rhs_vector, allocate_workspace, add_row_partitioned_matrix, get_num_spaces, dtor, mat_dtor, planner_dtor,
        domain_partition_from_range_partition, range_partition_from_domain_partition,
        create_coo_stencil_matrix, create_csr_stencil_matrix, coo_negative_laplacian, csr_negative_laplacian,
        print_index_partition, coo_ctor, csr_ctor, rt_create_index_space, rt_create_field_space; kxx; fail).
  intros H. injection H as <-. apply kx_refl.
Qed.
Lemma history_kx h : forall c c', run_history c h = COk c' -> kx (c_rt c) (c_rt c').
Proof.
  induction h as [|a h IH]; cbn; intros c c' H; [injection H as <-; apply kx_refl|].
  destruct (step c a) as [c1| |] eqn:e; try discriminate.
  eapply kx_trans; [eapply step_kx; eauto|auto].
Qed.
