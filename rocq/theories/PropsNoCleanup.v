(** PropsNoCleanup: C97, the build without cleanup does the same and keeps everything. *)
Require Import List Arith Bool ZArith Lia.
From Verif Require Import Ownership OwnershipSpec OwnershipFacts PropsOwnership OwnershipPrograms PropsPrograms NoCleanup.
Import ListNotations.
Set Implicit Arguments.

(** ** The same handles *)

(** Same objects, and no fewer owners. *)
Definition keeps (s t : lstate) : Prop :=
  l_next s = l_next t /\ l_kind s = l_kind t /\ forall o, l_refs s o <= l_refs t o.
Definition sim {A} (m m' : rt A) : Prop := forall s t, keeps s t ->
  match m s with
  | ROk a s' => exists t', m' t = ROk a t' /\ keeps s' t'
  | RAbort => m' t = RAbort
  | RIllegal => True
  end.

Lemma sim_ret {A} (a : A) : sim (ret a) (ret a).
Proof. intros s t K. cbn. eauto. Qed.
Lemma sim_bind {A B} (m m' : rt A) (f f' : A -> rt B) : sim m m' -> (forall a, sim (f a) (f' a)) -> sim (bind m f) (bind m' f').
Proof.
  intros S1 S2 s t K. unfold bind. specialize (S1 s t K). destruct (m s) as [a s1| |].
  - destruct S1 as (t1 & -> & K1). apply (S2 a s1 t1 K1).
  - exact I.
  - rewrite S1. reflexivity.
Qed.
(** The call disappears. *)
Lemma sim_gone {A} (m : rt unit) (m' : rt A) (f : unit -> rt A) : sim m (ret tt) -> sim (f tt) m' -> sim (bind m f) m'.
Proof.
  intros S1 S2 s t K. unfold bind. specialize (S1 s t K). destruct (m s) as [[] s1| |].
  - destruct S1 as (t1 & E & K1). injection E as <-. apply (S2 _ _ K1).
  - exact I.
  - discriminate.
Qed.
Lemma sim_assert b : sim (assert_ b) (assert_ b).
Proof. intros s t K. unfold assert_. destruct b; eauto. Qed.
Lemma keeps_alive s t o : keeps s t -> aliveb s o = true -> aliveb t o = true.
Proof.
  intros (_ & _ & R). unfold aliveb. rewrite !negb_true_iff, !Nat.eqb_neq. specialize (R o). lia.
Qed.
Lemma sim_need o : sim (need o) (need o).
Proof.
  intros s t K. unfold need. destruct (aliveb s o) eqn:E; [|exact I]. rewrite (keeps_alive _ K E). eauto.
Qed.
Lemma sim_create k : sim (rt_create k) (rt_create k).
Proof.
  intros s t (K1 & K2 & K3). unfold rt_create. rewrite K1, K2. eexists. split; [reflexivity|].
  split; [reflexivity|]. split; [reflexivity|]. cbn. intros o. unfold fupd. destruct (o =? l_next t); auto.
Qed.
Lemma sim_share o : sim (rt_share o) (rt_share o).
Proof.
  unfold rt_share. apply sim_bind; [apply sim_need|]. intros _ s t (K1 & K2 & K3). eexists. split; [reflexivity|].
  split; [exact K1|]. split; [exact K2|]. cbn. intros z. unfold fupd. destruct (z =? o); auto. specialize (K3 o). lia.
Qed.
Ltac by_kind p := let s := fresh "s" in let t := fresh "t" in let K := fresh "K" in
  intros s t K; pose proof K as (_ & ? & _); replace (l_kind s p) with (l_kind t p) by congruence;
  destruct (l_kind t p); eauto.
Lemma sim_region a b : sim (rt_create_logical_region a b) (rt_create_logical_region a b).
Proof.
  unfold rt_create_logical_region. repeat (apply sim_bind; [first [apply sim_need|apply sim_create]|intros]). apply sim_ret.
Qed.
Lemma sim_part q k : sim (rt_create_partition q k) (rt_create_partition q k).
Proof.
  unfold rt_create_partition. do 2 (apply sim_bind; [apply sim_need|intros _]).
  apply sim_bind; [by_kind q|intros _; apply sim_create].
Qed.
Lemma sim_parent p : sim (rt_parent_space p) (rt_parent_space p).
Proof. unfold rt_parent_space. apply sim_bind; [apply sim_need|intros _]. by_kind p. Qed.
Lemma sim_color p : sim (rt_color_space p) (rt_color_space p).
Proof. unfold rt_color_space. apply sim_bind; [apply sim_need|intros _]. by_kind p. Qed.
Lemma sim_lpart r p : sim (rt_logical_partition r p) (rt_logical_partition r p).
Proof. unfold rt_logical_partition. do 2 (apply sim_bind; [apply sim_need|intros _]). apply sim_ret. Qed.

(** Each destroy call may be left out. *)
Definition less (s s' : lstate) : Prop := l_next s' = l_next s /\ l_kind s' = l_kind s /\ forall o, l_refs s' o <= l_refs s o.
Definition only_less (m : rt unit) : Prop := forall s, match m s with ROk _ s' => less s s' | RIllegal => True | RAbort => False end.
Lemma less_trans a b c : less a b -> less b c -> less a c.
Proof. intros (A1 & A2 & A3) (B1 & B2 & B3). repeat split; try congruence. intros o. specialize (A3 o). specialize (B3 o). lia. Qed.
Lemma less_refl a : less a a. Proof. repeat split; auto. Qed.
Lemma ol_bind m f : only_less m -> only_less (f tt) -> only_less (bind m f).
Proof.
  intros H1 H2 s. unfold bind. specialize (H1 s). destruct (m s) as [[] s1| |]; auto.
  specialize (H2 s1). destruct (f tt s1) as [[] s2| |]; auto. eapply less_trans; eauto.
Qed.
Lemma ol_drop o : only_less (rt_drop o).
Proof.
  unfold rt_drop. apply ol_bind.
  - intros s. unfold need. destruct (aliveb s o); auto using less_refl.
  - intros s. split; [reflexivity|]. split; [reflexivity|]. cbn. intros z. unfold fupd. destruct (Nat.eqb_spec z o); subst; lia.
Qed.
Lemma ol_ret : only_less (ret tt). Proof. intros s. apply less_refl. Qed.
Ltac ol_kind := let s := fresh "s" in intros s; match goal with |- context [l_kind s ?x] => destruct (l_kind s x) end; auto using less_refl.
Lemma ol_space o : only_less (rt_destroy_index_space o).
Proof.
  unfold rt_destroy_index_space. apply ol_bind; [ol_kind|]. apply ol_bind; [apply ol_drop|].
  intros s. destruct (aliveb s o); [apply less_refl|]. split; [reflexivity|]. split; [reflexivity|].
  cbn. intros x. destruct (is_part_of o (l_kind s x)); lia.
Qed.
Lemma ol_fields o : only_less (rt_destroy_field_space o).
Proof. unfold rt_destroy_field_space. apply ol_bind; [ol_kind|apply ol_drop]. Qed.
Lemma ol_region r : only_less (rt_destroy_logical_region r).
Proof. unfold rt_destroy_logical_region. apply ol_bind; [ol_kind|apply ol_drop]. Qed.
Lemma ol_part o : only_less (rt_destroy_index_partition o).
Proof. unfold rt_destroy_index_partition. apply ol_bind; [ol_kind|apply ol_drop]. Qed.
Lemma ol_iter {A} (f : A -> rt unit) l : (forall a, only_less (f a)) -> only_less (iterM f l).
Proof. intros H. induction l; cbn [iterM]; [apply ol_ret|apply ol_bind; auto]. Qed.
Ltac ols := repeat match goal with
  | |- only_less (bind _ _) => apply ol_bind
  | |- only_less (rt_destroy_index_space _) => apply ol_space
  | |- only_less (rt_destroy_field_space _) => apply ol_fields
  | |- only_less (rt_destroy_logical_region _) => apply ol_region
  | |- only_less (rt_destroy_index_partition _) => apply ol_part
  | |- only_less (iterM _ _) => apply ol_iter; intros
  | |- only_less (ret tt) => apply ol_ret
  end.
Lemma ol_vec v : only_less (vec_dtor v).
Proof. unfold vec_dtor. ols. Qed.
Lemma ol_unshare r : only_less (unshare_region r).
Proof. unfold unshare_region. ols. Qed.
Lemma ol_mat m : only_less (mat_dtor m).
Proof. destruct m; cbn [mat_dtor]; ols; apply ol_unshare. Qed.
Lemma ol_planner p : only_less (planner_dtor p).
Proof.
  unfold planner_dtor. ols; auto using ol_vec.
  destruct (p_wfields p); [apply ol_fields|apply ol_ret].
Qed.
Lemma sim_off (m m' : rt unit) : only_less m -> (forall s, m' s = ROk tt s) -> sim m m'.
Proof.
  intros L E s t (K1 & K2 & K3). specialize (L s). destruct (m s) as [[] s1| |]; [|exact I|destruct L].
  exists t. split; [apply E|]. destruct L as (L1 & L2 & L3). repeat split; try congruence.
  intros o. specialize (L3 o). specialize (K3 o). lia.
Qed.

Lemma sim_iter {A} (f f' : A -> rt unit) l : (forall a, sim (f a) (f' a)) -> sim (iterM f l) (iterM f' l).
Proof. intros H. induction l; cbn [iterM]; [apply sim_ret|apply sim_bind; auto]. Qed.
Lemma sim_map {A B} (f f' : A -> rt B) l : (forall a, sim (f a) (f' a)) -> sim (mapM f l) (mapM f' l).
Proof.
  intros H. induction l; cbn [mapM]; [apply sim_ret|]. apply sim_bind; [auto|intros b].
  apply sim_bind; [auto|intros bs]. apply sim_ret.
Qed.
Lemma sim_vec_dtor v : sim (vec_dtor v) (vec_dtor_off v). Proof. apply sim_off; [apply ol_vec|reflexivity]. Qed.

Ltac sims := repeat match goal with
  | |- sim (bind _ _) (bind _ _) => apply sim_bind; [|intros]
  | |- sim (rt_share _) _ => apply sim_share
  | |- sim (need _) _ => apply sim_need
  | |- sim (assert_ _) _ => apply sim_assert
  | |- sim (ret _) _ => apply sim_ret
  | |- sim (rt_logical_partition _ _) _ => apply sim_lpart
  | |- sim (rt_create_logical_region _ _) _ => apply sim_region
  | |- sim (rt_create_partition _ _) _ => apply sim_part
  | |- sim rt_create_index_space _ => apply sim_create
  | |- sim rt_create_field_space _ => apply sim_create
  | |- sim (rt_parent_space _) _ => apply sim_parent
  | |- sim (rt_color_space _) _ => apply sim_color
  end.
Lemma sim_vec_copy v : sim (vec_copy v) (vec_copy v). Proof. unfold vec_copy. sims. Qed.
Lemma sim_vec_part p : sim (vec_ctor_partition p) (vec_ctor_partition p). Proof. unfold vec_ctor_partition. sims. Qed.
Lemma sim_vec_log lp : sim (vec_ctor_logical lp) (vec_ctor_logical lp). Proof. unfold vec_ctor_logical. sims. Qed.
Lemma sim_share_region r : sim (share_region r) (share_region r). Proof. unfold share_region. sims. Qed.
Lemma sim_coo k : sim (coo_ctor k) (coo_ctor k). Proof. unfold coo_ctor. sims. apply sim_share_region. Qed.
Lemma sim_csr k r : sim (csr_ctor k r) (csr_ctor k r). Proof. unfold csr_ctor. sims; apply sim_share_region. Qed.
Lemma sim_mat_copy m : sim (mat_copy m) (mat_copy m). Proof. destruct m; cbn [mat_copy]; sims; apply sim_share_region. Qed.
Lemma sim_krange m p : sim (kernel_from_range m p) (kernel_from_range m p).
Proof. destruct m; cbn [kernel_from_range]; sims. Qed.
Lemma sim_kdomain m p : sim (kernel_from_domain m p) (kernel_from_domain m p).
Proof. unfold kernel_from_domain; sims. Qed.
Lemma sim_dkernel m q p : sim (domain_from_kernel m q p) (domain_from_kernel m q p).
Proof. unfold domain_from_kernel; sims. Qed.
Lemma sim_rkernel m q p : sim (range_from_kernel m q p) (range_from_kernel m q p).
Proof. destruct m; cbn [range_from_kernel]; sims. Qed.
Lemma sim_canonical l i o : sim (canonical l i o) (canonical l i o).
Proof. unfold canonical. destruct (nth_error l i); sims. Qed.
Lemma sim_push g l v : sim (push_back g l v) (push_back_off g l v).
Proof.
  unfold push_back, push_back_off. sims; [apply sim_vec_copy|]. destruct g; sims.
  - apply sim_map, sim_vec_copy.
  - apply sim_iter, sim_vec_dtor.
Qed.
Lemma sim_emplace g l v : sim (emplace_back g l v) (emplace_back_off g l v).
Proof.
  unfold emplace_back, emplace_back_off. sims; [apply sim_vec_log|]. destruct g; sims.
  - apply sim_map, sim_vec_copy.
  - apply sim_iter, sim_vec_dtor.
Qed.
Lemma sim_sol g p v : sim (add_sol_vector g p v) (add_sol_vector_off g p v).
Proof. unfold add_sol_vector, add_sol_vector_off. sims; auto using sim_canonical, sim_push. Qed.
Lemma sim_rhs g p v : sim (add_rhs_vector g p v) (add_rhs_vector_off g p v).
Proof. unfold add_rhs_vector, add_rhs_vector_off. sims; auto using sim_canonical, sim_push. Qed.
Lemma sim_row g lp rows : forall j, sim (workspace_row g j rows lp) (workspace_row_off g j rows lp).
Proof. induction rows; intros j; cbn [workspace_row workspace_row_off]; sims; auto using sim_emplace. Qed.
Lemma sim_loop g wf sps : forall pts i regs lps rows,
  sim (workspace_loop g i wf sps pts regs lps rows) (workspace_loop_off g i wf sps pts regs lps rows).
Proof.
  induction sps as [|sp sps IH]; intros pts i regs lps rows; destruct pts; cbn [workspace_loop workspace_loop_off]; sims;
    auto using sim_row.
Qed.
Lemma sim_alloc g p n : sim (allocate_workspace g p n) (allocate_workspace_off g p n).
Proof.
  unfold allocate_workspace, allocate_workspace_off. sims; [apply sim_loop|].
  destruct a5 as [[regs lps] rows]. sims.
Qed.
Lemma sim_coo_laplacian ls : sim (coo_negative_laplacian ls) (coo_negative_laplacian_off ls).
Proof.
  unfold coo_negative_laplacian, coo_negative_laplacian_off. sims; [apply sim_coo|].
  repeat (apply sim_gone; [apply sim_off; [ols|reflexivity]|]). apply sim_ret.
Qed.
Lemma sim_csr_laplacian ls : sim (csr_negative_laplacian ls) (csr_negative_laplacian_off ls).
Proof.
  unfold csr_negative_laplacian, csr_negative_laplacian_off. sims; [apply sim_csr|].
  repeat (apply sim_gone; [apply sim_off; [ols|reflexivity]|]). apply sim_ret.
Qed.
Lemma sim_print p : sim (print_index_partition p) (print_index_partition_off p).
Proof.
  unfold print_index_partition, print_index_partition_off. sims.
  apply sim_off; [ols|reflexivity].
Qed.
Lemma iter_off {A} (f : A -> rt unit) l s : (forall a s, f a s = ROk tt s) -> iterM f l s = ROk tt s.
Proof. intros H. induction l; cbn [iterM]; [reflexivity|]. unfold bind. rewrite H. exact IHl. Qed.
Lemma dtor_off_nop x s : dtor_off x s = ROk tt s.
Proof.
  destruct x; [reflexivity|reflexivity|]. cbn [dtor_off]. unfold planner_dtor_off, bind.
  rewrite iter_off by (intros; apply iter_off; reflexivity). rewrite iter_off by reflexivity. apply iter_off; reflexivity.
Qed.
Lemma sim_dtor x : sim (dtor x) (dtor_off x).
Proof. apply sim_off; [destruct x; [apply ol_vec|apply ol_mat|apply ol_planner]|apply dtor_off_nop]. Qed.

(** Two programs with the same objects, handles and lost references. *)
Definition same_program (c d : client) : Prop :=
  c_user c = c_user d /\ c_env c = c_env d /\ c_lost c = c_lost d /\ c_fresh c = c_fresh d /\ keeps (c_rt c) (c_rt d).
Definition follows (r r' : cres) : Prop :=
  match r with COk c => exists d, r' = COk d /\ same_program c d | CAbort => r' = CAbort | CIllegal => True end.

Lemma run_follows {A} (m m' : rt A) c d (k : client -> A -> lstate -> client) : sim m m' -> same_program c d ->
  (forall a s t, keeps s t -> same_program (k c a s) (k d a t)) ->
  follows (run m c (k c)) (run m' d (k d)).
Proof.
  intros S (E1 & E2 & E3 & E4 & K) H. unfold run, follows. specialize (S _ _ K).
  destruct (m (c_rt c)) as [a s| |]; [|exact I|].
  - destruct S as (t & -> & K1). eauto.
  - rewrite S. reflexivity.
Qed.

Ltac same := intros; unfold same_program in *; cbn [give_user take_user new_obj set_obj del_obj lose c_rt c_user c_env c_lost c_fresh];
  repeat match goal with H : ?f ?c = ?f ?d |- context [?f ?c] => rewrite H end;
  split; [reflexivity|]; split; [reflexivity|]; split; [reflexivity|]; split; [reflexivity|]; assumption.
Lemma drop_follows (m : rt unit) c d o : only_less m -> same_program c d ->
  follows (run m c (fun _ s => take_user c o s)) (COk (take_user d o (c_rt d))).
Proof.
  intros L (E1 & E2 & E3 & E4 & K). unfold run. specialize (L (c_rt c)).
  destruct (m (c_rt c)) as [a s| |]; [|exact I|destruct L]. cbn [follows]. eexists. split; [reflexivity|].
  unfold same_program. cbn [take_user c_rt c_user c_env c_lost c_fresh]. rewrite E1.
  split; [reflexivity|]. split; [auto|]. split; [auto|]. split; [auto|].
  destruct L as (L1 & L2 & L3). destruct K as (K1 & K2 & K3). split; [congruence|]. split; [congruence|].
  intros z. specialize (L3 z). specialize (K3 z). lia.
Qed.
Lemma sim_dfr m ds rp : sim (domain_partition_from_range_partition m ds rp) (domain_partition_from_range_partition m ds rp).
Proof. unfold domain_partition_from_range_partition. sims; auto using sim_krange, sim_dkernel. Qed.
Lemma sim_rfd m rs dp : sim (range_partition_from_domain_partition m rs dp) (range_partition_from_domain_partition m rs dp).
Proof. unfold range_partition_from_domain_partition. sims; auto using sim_kdomain, sim_rkernel. Qed.
Lemma sim_addmat p n x d r : sim (add_row_partitioned_matrix p n x d r) (add_row_partitioned_matrix p n x d r).
Proof.
  unfold add_row_partitioned_matrix. sims; auto using sim_krange, sim_dkernel. unfold get_num_spaces. sims.
Qed.
Lemma sim_coo_stencil : sim create_coo_stencil_matrix create_coo_stencil_matrix.
Proof. unfold create_coo_stencil_matrix. sims; auto using sim_coo. Qed.
Lemma sim_csr_stencil : sim create_csr_stencil_matrix create_csr_stencil_matrix.
Proof. unfold create_csr_stencil_matrix. sims; auto using sim_csr. Qed.

Lemma step_follows c d a : same_program c d -> follows (step c a) (step_off d a).
Proof.
  intros SP. pose proof SP as (E1 & E2 & E3 & E4 & K).
  assert (NOP : follows (COk c) (COk d)) by (exists d; auto).
  destruct a; cbn [step step_off]; rewrite <- ?E2;
    repeat match goal with |- context [match lookup ?n ?e with _ => _ end] => destruct (lookup n e) as [[?|?|?]|] end; auto;
    try (apply drop_follows; [ols|assumption]); try match goal with
   | |- follows (run _ c (fun o s => give_user c [o] s)) _ => apply (@run_follows _ _ _ c d (fun c o s => give_user c [o] s)); [|assumption|same]
   | |- follows (run _ c (fun r s => give_user c [rg_id r] s)) _ => apply (@run_follows _ _ _ c d (fun c r s => give_user c [rg_id r] s)); [|assumption|same]
   | |- follows (run _ c (fun o s => give_user c [?x] s)) _ => apply (@run_follows _ _ _ c d (fun c o s => give_user c [x] s)); [|assumption|same]
   | |- follows (run _ c (fun v s => new_obj c (CVec v) s)) _ => apply (@run_follows _ _ _ c d (fun c v s => new_obj c (CVec v) s)); [|assumption|same]
   | |- follows (run _ c (fun v s => new_obj c (CMat v) s)) _ => apply (@run_follows _ _ _ c d (fun c v s => new_obj c (CMat v) s)); [|assumption|same]
   | |- follows (run _ c (fun p s => set_obj c ?n (CPlan p) s)) _ => apply (@run_follows _ _ _ c d (fun c p s => set_obj c n (CPlan p) s)); [|assumption|same]
   | |- follows (run _ c (fun p s => del_obj c ?n s)) _ => apply (@run_follows _ _ _ c d (fun c p s => del_obj c n s)); [|assumption|same]
   | |- follows (run _ c (fun p s => lose [snd p] (give_user c [fst p] s))) _ => apply (@run_follows _ _ _ c d (fun c p s => lose [snd p] (give_user c [fst p] s))); [|assumption|same]
   | |- follows (run _ c (fun p s => lose (snd p) (new_obj c (CMat (fst p)) s))) _ => apply (@run_follows _ _ _ c d (fun c p s => lose (snd p) (new_obj c (CMat (fst p)) s))); [|assumption|same]
   | |- follows (run _ c (fun _ s => Client s _ _ _ _)) _ => apply (@run_follows _ _ _ c d (fun c _ s => Client s (c_user c) (c_env c) (c_lost c) (c_fresh c))); [|assumption|same]
   end;
   auto using sim_create, sim_region, sim_part, sim_share, sim_vec_part, sim_vec_log, sim_vec_copy, sim_coo, sim_csr, sim_mat_copy,
    sim_sol, sim_rhs, sim_alloc, sim_addmat, sim_dtor, sim_dfr, sim_rfd, sim_coo_stencil, sim_csr_stencil, sim_coo_laplacian,
    sim_csr_laplacian, sim_print, sim_krange, sim_kdomain, sim_dkernel, sim_rkernel.
  - apply sim_create.
  - apply sim_create.
  - eexists. split; [reflexivity|]. unfold same_program. cbn [new_obj c_rt c_user c_env c_lost c_fresh].
    rewrite E1, E2, E3, E4. auto.
  - assert (F := @run_follows _ _ _ c d (fun c _ s => Client s (c_user c) (c_env c) (c_lost c) (c_fresh c)) (sim_print p) SP).
    cbv beta in F. rewrite <- E2 in F. apply F. intros. unfold same_program in *. cbn [c_rt c_user c_env c_lost c_fresh]. rewrite E1, E3, E4. auto 10.
Qed.

Lemma history_follows h : forall c d, same_program c d -> follows (run_history c h) (run_history_off d h).
Proof.
  induction h as [|a h IH]; intros c d SP; cbn [run_history run_history_off]; [exists d; auto|].
  pose proof (step_follows a SP) as F. destruct (step c a) as [c1| |]; cbn [follows] in F.
  - destruct F as (d1 & -> & SP1). auto.
  - exact I.
  - rewrite F. reflexivity.
Qed.

(** ** Nothing is given back *)

Definition full (s : lstate) : Prop := forall o, alive s o <-> o < l_next s.
Definition up (s t : lstate) : Prop := l_next s <= l_next t /\ forall o, l_refs s o <= l_refs t o.
Definition grows {A} (m : rt A) : Prop := forall s, full s -> match m s with ROk _ t => full t /\ up s t | _ => True end.
Lemma up_refl s : up s s. Proof. split; auto. Qed.
Lemma up_trans s t u : up s t -> up t u -> up s u.
Proof. intros [A1 A2] [B1 B2]. split; [lia|]. intros o. specialize (A2 o). specialize (B2 o). lia. Qed.
Lemma gr_ret {A} (a : A) : grows (ret a). Proof. intros s F. split; auto using up_refl. Qed.
Lemma gr_bind {A B} (m : rt A) (f : A -> rt B) : grows m -> (forall a, grows (f a)) -> grows (bind m f).
Proof.
  intros H1 H2 s F. unfold bind. specialize (H1 s F). destruct (m s) as [a s1| |]; auto. destruct H1 as [F1 U1].
  specialize (H2 a s1 F1). destruct (f a s1) as [b s2| |]; auto. destruct H2. eauto using up_trans.
Qed.
Lemma gr_assert b : grows (assert_ b). Proof. intros s F. unfold assert_. destruct b; auto using up_refl. Qed.
Lemma gr_need o : grows (need o). Proof. intros s F. unfold need. destruct (aliveb s o); auto using up_refl. Qed.
Lemma gr_create k : grows (rt_create k).
Proof.
  intros s F. unfold rt_create. unfold full, up, alive in *. cbn [l_next l_refs]. split.
  - intros o. unfold fupd. destruct (Nat.eqb_spec o (l_next s)) as [->|n]; [lia|]. specialize (F o). lia.
  - split; [lia|]. intros o. unfold fupd. destruct (Nat.eqb_spec o (l_next s)) as [->|n]; [|lia]. specialize (F (l_next s)). lia.
Qed.
Lemma gr_share o : grows (rt_share o).
Proof.
  intros s F. unfold rt_share, bind, need. destruct (aliveb s o) eqn:E; auto. unfold full, up, alive, aliveb in *. cbn [l_next l_refs].
  rewrite negb_true_iff, Nat.eqb_neq in E. split.
  - intros z. unfold fupd. destruct (Nat.eqb_spec z o) as [->|n]; [|auto]. specialize (F o). split; [tauto|lia].
  - split; [lia|]. intros z. unfold fupd. destruct (Nat.eqb_spec z o) as [->|n]; lia.
Qed.
Ltac gr_kind := let s := fresh "s" in let F := fresh in intros s F; match goal with |- context [l_kind s ?p] => destruct (l_kind s p) end; auto using up_refl.
Ltac grs := repeat match goal with
  | |- grows (bind _ _) => apply gr_bind; [|intros]
  | |- grows (need _) => apply gr_need
  | |- grows (rt_share _) => apply gr_share
  | |- grows (rt_create _) => apply gr_create
  | |- grows (assert_ _) => apply gr_assert
  | |- grows (ret _) => apply gr_ret
  | |- grows rt_create_index_space => apply gr_create
  | |- grows rt_create_field_space => apply gr_create
  end.
Lemma gr_parent p : grows (rt_parent_space p). Proof. unfold rt_parent_space. grs. gr_kind. Qed.
Lemma gr_color p : grows (rt_color_space p). Proof. unfold rt_color_space. grs. gr_kind. Qed.
Lemma gr_region a b : grows (rt_create_logical_region a b). Proof. unfold rt_create_logical_region. grs. Qed.
Lemma gr_part a b : grows (rt_create_partition a b). Proof. unfold rt_create_partition. grs. gr_kind. Qed.
Lemma gr_lpart r p : grows (rt_logical_partition r p). Proof. unfold rt_logical_partition. grs. Qed.
Ltac grs ::= repeat match goal with
  | |- grows (bind _ _) => apply gr_bind; [|intros]
  | |- grows (need _) => apply gr_need
  | |- grows (rt_share _) => apply gr_share
  | |- grows (rt_create _) => apply gr_create
  | |- grows (assert_ _) => apply gr_assert
  | |- grows (ret _) => apply gr_ret
  | |- grows rt_create_index_space => apply gr_create
  | |- grows rt_create_field_space => apply gr_create
  | |- grows (rt_parent_space _) => apply gr_parent
  | |- grows (rt_color_space _) => apply gr_color
  | |- grows (rt_create_logical_region _ _) => apply gr_region
  | |- grows (rt_create_partition _ _) => apply gr_part
  | |- grows (rt_logical_partition _ _) => apply gr_lpart
  end.
Lemma gr_map {A B} (f : A -> rt B) l : (forall a, grows (f a)) -> grows (mapM f l).
Proof. intros H. induction l; cbn [mapM]; grs; auto. Qed.
Lemma gr_iter {A} (f : A -> rt unit) l : (forall a, grows (f a)) -> grows (iterM f l).
Proof. intros H. induction l; cbn [iterM]; grs; auto. Qed.
Lemma gr_vec_dtor v : grows (vec_dtor_off v). Proof. apply gr_ret. Qed.
Lemma gr_share_region r : grows (share_region r). Proof. unfold share_region. grs. Qed.
Lemma gr_canonical l i o : grows (canonical l i o). Proof. unfold canonical. destruct (nth_error l i); grs. Qed.
Lemma gr_num p : grows (get_num_spaces p). Proof. unfold get_num_spaces. grs. Qed.
Lemma gr_vec_copy v : grows (vec_copy v). Proof. unfold vec_copy. grs. Qed.
Lemma gr_vec_part p : grows (vec_ctor_partition p). Proof. unfold vec_ctor_partition. grs; auto using gr_parent, gr_region, gr_color. Qed.
Lemma gr_vec_log lp : grows (vec_ctor_logical lp). Proof. unfold vec_ctor_logical. grs; auto using gr_color. Qed.
Lemma gr_coo k : grows (coo_ctor k). Proof. unfold coo_ctor. grs. apply gr_share_region. Qed.
Lemma gr_csr k r : grows (csr_ctor k r). Proof. unfold csr_ctor. grs; apply gr_share_region. Qed.
Lemma gr_mat_copy m : grows (mat_copy m). Proof. destruct m; cbn [mat_copy]; grs; apply gr_share_region. Qed.
Lemma gr_krange m p : grows (kernel_from_range m p). Proof. destruct m; cbn [kernel_from_range]; grs; auto using gr_color, gr_part, gr_lpart. Qed.
Lemma gr_kdomain m p : grows (kernel_from_domain m p). Proof. unfold kernel_from_domain; grs; auto using gr_color, gr_part. Qed.
Lemma gr_dkernel m q p : grows (domain_from_kernel m q p). Proof. unfold domain_from_kernel; grs; auto using gr_color, gr_part, gr_lpart. Qed.
Lemma gr_rkernel m q p : grows (range_from_kernel m q p). Proof. destruct m; cbn [range_from_kernel]; grs; auto using gr_color, gr_part, gr_lpart. Qed.
Lemma gr_push g l v : grows (push_back_off g l v).
Proof. unfold push_back_off. grs; [apply gr_vec_copy|]. destruct g; grs; auto using gr_map, gr_iter, gr_vec_copy, gr_vec_dtor. Qed.
Lemma gr_emplace g l v : grows (emplace_back_off g l v).
Proof. unfold emplace_back_off. grs; [apply gr_vec_log|]. destruct g; grs; auto using gr_map, gr_iter, gr_vec_copy, gr_vec_dtor. Qed.
Lemma gr_row g lp rows : forall j, grows (workspace_row_off g j rows lp).
Proof. induction rows; intros j; cbn [workspace_row_off]; grs; auto using gr_emplace. Qed.
Lemma gr_loop g wf sps : forall pts i regs lps rows, grows (workspace_loop_off g i wf sps pts regs lps rows).
Proof. induction sps; intros pts i regs lps rows; destruct pts; cbn [workspace_loop_off]; grs; auto using gr_region, gr_lpart, gr_row. Qed.
Lemma gr_sol g p v : grows (add_sol_vector_off g p v).
Proof. unfold add_sol_vector_off. grs; auto using gr_canonical, gr_push. Qed.
Lemma gr_rhs g p v : grows (add_rhs_vector_off g p v).
Proof. unfold add_rhs_vector_off. grs; auto using gr_canonical, gr_push. Qed.
Lemma gr_alloc g p n : grows (allocate_workspace_off g p n).
Proof. unfold allocate_workspace_off. grs; [apply gr_loop|]. destruct a5 as [[? ?] ?]. grs. Qed.
Lemma gr_addmat p n x d r : grows (add_row_partitioned_matrix p n x d r).
Proof. unfold add_row_partitioned_matrix. grs; auto using gr_num, gr_krange, gr_dkernel, gr_lpart. Qed.
Lemma gr_dtor x : grows (dtor_off x).
Proof. intros s F. rewrite dtor_off_nop. split; auto using up_refl. Qed.
Lemma gr_dfr m ds rp : grows (domain_partition_from_range_partition m ds rp).
Proof. unfold domain_partition_from_range_partition. grs; auto using gr_krange, gr_dkernel. Qed.
Lemma gr_rfd m rs dp : grows (range_partition_from_domain_partition m rs dp).
Proof. unfold range_partition_from_domain_partition. grs; auto using gr_kdomain, gr_rkernel. Qed.
Lemma gr_coo_stencil : grows create_coo_stencil_matrix.
Proof. unfold create_coo_stencil_matrix. grs; auto using gr_coo, gr_region, gr_part, gr_lpart. Qed.
Lemma gr_csr_stencil : grows create_csr_stencil_matrix.
Proof. unfold create_csr_stencil_matrix. grs; auto using gr_csr, gr_region, gr_part, gr_lpart. Qed.
Lemma gr_coo_lap ls : grows (coo_negative_laplacian_off ls).
Proof. unfold coo_negative_laplacian_off. grs; auto using gr_coo, gr_region, gr_part, gr_lpart. Qed.
Lemma gr_csr_lap ls : grows (csr_negative_laplacian_off ls).
Proof. unfold csr_negative_laplacian_off. grs; auto using gr_csr, gr_region, gr_part, gr_lpart. Qed.
Lemma gr_print p : grows (print_index_partition_off p).
Proof. unfold print_index_partition_off. grs; auto using gr_color, gr_parent, gr_region, gr_lpart. Qed.

Lemma gr_run {A} (m : rt A) c k c' : grows m -> full (c_rt c) -> (forall a s, c_rt (k a s) = s) -> run m c k = COk c' ->
  full (c_rt c') /\ up (c_rt c) (c_rt c').
Proof.
  intros G F H. unfold run. specialize (G _ F). destruct (m (c_rt c)) as [a s| |]; try discriminate.
  intros E. injection E as <-. rewrite H. exact G.
Qed.
Lemma step_up c a c' : full (c_rt c) -> step_off c a = COk c' -> full (c_rt c') /\ up (c_rt c) (c_rt c').
Proof.
  intros F. destruct a; cbn [step_off step];
    repeat match goal with |- context [match lookup ?n ?e with _ => _ end] => destruct (lookup n e) as [[?|?|?]|] end;
    intros E;
    try (injection E as <-; cbn [take_user new_obj c_rt]; split; [assumption|apply up_refl]);
    (eapply gr_run in E; [exact E| |assumption|reflexivity]);
    auto using gr_create, gr_region, gr_part, gr_share, gr_vec_part, gr_vec_log, gr_vec_copy, gr_coo, gr_csr, gr_mat_copy, gr_sol, gr_rhs,
      gr_alloc, gr_addmat, gr_dtor, gr_dfr, gr_rfd, gr_coo_stencil, gr_csr_stencil, gr_coo_lap, gr_csr_lap, gr_print, gr_krange, gr_kdomain,
      gr_dkernel, gr_rkernel; apply gr_create.
Qed.
Lemma history_up h : forall c c', full (c_rt c) -> run_history_off c h = COk c' -> full (c_rt c') /\ up (c_rt c) (c_rt c').
Proof.
  induction h as [|a h IH]; intros c c' F; cbn [run_history_off].
  - intros E. injection E as <-. auto using up_refl.
  - destruct (step_off c a) as [c1| |] eqn:E; try discriminate. intros R.
    destruct (step_up _ _ F E) as [F1 U1]. destruct (IH _ _ F1 R) as [F2 U2]. eauto using up_trans.
Qed.
Lemma full_init : full (c_rt client_init).
Proof. intros o. unfold alive. cbn. split; lia. Qed.

(** ** The property *)

(** Whatever a correct client does, this build gives the same outcome with the same handles. *)
Theorem C97_same_outcome : forall h, legal_history client_init h ->
  match run_history client_init h with
  | COk c => exists d, run_history_off client_init h = COk d /\
      c_env d = c_env c /\ c_user d = c_user c /\ c_fresh d = c_fresh c /\
      l_next (c_rt d) = l_next (c_rt c) /\ l_kind (c_rt d) = l_kind (c_rt c) /\
      (forall o, l_refs (c_rt c) o <= l_refs (c_rt d) o)
  | CAbort => run_history_off client_init h = CAbort
  | CIllegal => False
  end.
Proof.
  intros h L. pose proof (C08_never_illegal _ L) as NI. assert (SP : same_program client_init client_init).
  { unfold same_program. do 4 (split; [reflexivity|]). split; [reflexivity|]. split; auto. }
  pose proof (history_follows h SP) as F. destruct (run_history client_init h) as [c| |]; cbn [follows] in F; [|congruence|exact F].
  destruct F as (d & E & E1 & E2 & E3 & E4 & K1 & K2 & K3). exists d. split; [exact E|]. repeat (split; [auto|]). auto.
Qed.

(** ... and whatever was created stays: every object that was ever created is still there, with at
    least the owners it ever had. *)
Theorem C97_nothing_released : forall h h' c d, run_history_off client_init h = COk c -> run_history_off c h' = COk d ->
  (forall o, alive (c_rt c) o <-> o < l_next (c_rt c)) /\
  (forall o, alive (c_rt d) o <-> o < l_next (c_rt d)) /\
  l_next (c_rt c) <= l_next (c_rt d) /\
  (forall o, l_refs (c_rt c) o <= l_refs (c_rt d) o).
Proof.
  intros h h' c d H1 H2. destruct (history_up _ _ full_init H1) as [F1 _]. destruct (history_up _ _ F1 H2) as [F2 [U1 U2]]. auto.
Qed.

(** The programs of test/ end in this build as well, and leave everything. *)
Definition leaves_all (h : list action) : Prop := exists d, run_history_off client_init h = COk d /\ c_env d = [] /\ c_user d = [] /\
  forall o, alive (c_rt d) o <-> o < l_next (c_rt d).
Lemma leaves_all_intro h : (exists c, reaches client_init h c /\ c_env c = [] /\ c_user c = [] /\ forall o, ~ alive (c_rt c) o) -> leaves_all h.
Proof.
  intros (c & [L R] & E1 & E2 & _). pose proof (C97_same_outcome _ L) as S. rewrite R in S.
  destruct S as (d & Rd & D1 & D2 & _). exists d. split; [exact Rd|]. split; [congruence|]. split; [congruence|].
  apply (history_up _ _ full_init Rd).
Qed.
Theorem C97_programs : forall g1 g2 gw,
  Forall (fun h => exists d, run_history_off client_init h = COk d /\ c_env d = [] /\ c_user d = [] /\
            forall o, alive (c_rt d) o <-> o < l_next (c_rt d))
    [test02_handles; test03_handles; test04_handles; test05_handles g1 g2 gw; test06_handles g1 g2 gw].
Proof.
  intros g1 g2 gw. change (Forall leaves_all [test02_handles; test03_handles; test04_handles; test05_handles g1 g2 gw; test06_handles g1 g2 gw]).
  repeat constructor; apply leaves_all_intro;
    auto using C96_test02, C96_test03, C96_test04, C96_test05, C96_test06.
Qed.
Theorem C97_benchmark : forall copied g1 g2 g3 g4 solver gw,
  exists d, run_history_off client_init (benchmark_handles copied g1 g2 g3 g4 solver gw) = COk d /\ c_env d = [] /\ c_user d = [] /\
    forall o, alive (c_rt d) o <-> o < l_next (c_rt d).
Proof.
  intros. destruct (C96_benchmark copied g1 g2 g3 g4 solver gw) as (c & [L R] & E1 & E2 & _).
  pose proof (C97_same_outcome _ L) as S. rewrite R in S. destruct S as (d & Rd & D1 & D2 & _).
  exists d. split; [exact Rd|]. split; [congruence|]. split; [congruence|]. apply (history_up _ _ full_init Rd).
Qed.

(** test/Test02VectorOperations.cpp in the two builds: everything released, or everything kept; and a
    program that gives back an index space too early is caught in the normal build only. *)
Example C97_test02_counts :
  (exists c, run_history client_init test02_handles = COk c /\ l_next (c_rt c) = 9 /\
     map (l_refs (c_rt c)) [0;1;2;3;4;5;6;7;8] = [0;0;0;0;0;0;0;0;0]) /\
  (exists d, run_history_off client_init test02_handles = COk d /\ l_next (c_rt d) = 9 /\
     map (l_refs (c_rt d)) [0;1;2;3;4;5;6;7;8] = [4;4;4;1;1;1;1;1;1]).
Proof. split; eexists; (split; [vm_compute; reflexivity|]); vm_compute; split; reflexivity. Qed.
Definition early : list action := [ ASpace; ALaplacianCsr 0; APartition 5 0; ADelete 0; ADropPartition 9; ADropSpace 0 ].
Example C97_hides_errors : run_history client_init early = CIllegal /\ exists d, run_history_off client_init early = COk d.
Proof. split; [vm_compute; reflexivity|]. eexists. vm_compute. reflexivity. Qed.
