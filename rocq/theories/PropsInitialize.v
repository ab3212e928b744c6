(** PropsInitialize: property C94 - what LegionSolvers::initialize registers and prints. *)
From Coq Require Import String Ascii List ZArith Bool Lia DecimalString DecimalFacts DecimalPos DecimalZ.
From Verif Require Import Base TaskIds PropsTaskIds TaskFlags TestAll Initialize.
Import ListNotations.
Set Implicit Arguments.
Local Open Scope string_scope.
Local Open Scope Z_scope.
Local Open Scope list_scope.
Notation "a +++ b" := (String.append a b) (at level 60, right associativity).

(** ** Specification *)
(** the lines printed and the variants registered, in order *)
Definition printed (acts : list action) : list string := flat_map (fun a => match a with Says l => [l] | _ => [] end) acts.
Definition variants (acts : list action) : list (Z * string * proc * registrar) := flat_map (fun a => match a with Variant i n k f => [(i, n, k, f)] | _ => [] end) acts.
(** the types the matrix tasks are registered for *)
Definition matrix_types (c : config) : Prop := use_f32 c = true /\ use_f64 c = true /\ use_s64 c = true.
(** tasks with GPU code of the library's own *)
Definition gpu_task (x : task) : Prop := In (t_block x) [SCAL; AXPY; XPAY; DOT; COO_MATVEC; COO_RMATVEC; CSR_MATVEC; CSR_RMATVEC].
(** the variants that must exist: every registered task on CPUs, and on GPUs the ones with GPU code when CUDA is used without Kokkos; and the task loading the CUDA libraries *)
Definition expected_variant (b : build) (v : Z * string * proc * registrar) : Prop :=
  let '(id, name, kind, flags) := v in
  (exists x, In x (registered (b_config b)) /\ task_id (b_config b) x = Some id /\ name = task_name x /\ flags = registrar_of (t_block x) /\
     (kind = LOC_PROC \/ (kind = TOC_PROC /\ gpu_task x /\ b_cuda b = true /\ b_kokkos b = false))) \/
  (b_cuda b = true /\ b_kokkos b = false /\ id = id_origin (b_config b) /\ name = "load_cuda_libs" /\ kind = TOC_PROC /\ flags = mk_registrar true false false false).

(** ** The calls are the registered tasks of TaskIds, each once *)
Lemma in_tdi_calls c bs x : In x (tdi_calls c bs) <-> exists b t n i, x = mk_task b (PTDI t n i) /\ In b bs /\ In t (etypes_registered c) /\ In n (dims_registered c) /\ In i (itypes_registered c).
Proof.
  unfold tdi_calls. split.
  - intros H. apply in_flat_map in H. destruct H as [t [Ht H]]. apply in_flat_map in H. destruct H as [i [Hi H]]. apply in_flat_map in H. destruct H as [n [Hn H]].
    apply in_map_iff in H. destruct H as [b [<- Hb]]. exists b, t, n, i. auto.
  - intros (b & t & n & i & -> & Hb & Ht & Hn & Hi). apply in_flat_map. exists t. split; [exact Ht|]. apply in_flat_map. exists i. split; [exact Hi|].
    apply in_flat_map. exists n. split; [exact Hn|]. apply in_map_iff. exists b. auto.
Qed.
Lemma in_registered_tdi c x : In x (registered_tdi c) <-> exists b t n i, x = mk_task b (PTDI t n i) /\
  In b [RANDOM_FILL; SCAL; AXPY; XPAY; DOT; FILL_COO_STENCIL; FILL_CSR_STENCIL; FILL_LINEARIZED_COO_STENCIL; FILL_LINEARIZED_CSR_STENCIL] /\
  In t (etypes_registered c) /\ In n (dims_registered c) /\ In i (itypes_registered c).
Proof.
  unfold registered_tdi. split.
  - intros H. apply in_flat_map in H. destruct H as [b [Hb H]]. apply in_flat_map in H. destruct H as [t [Ht H]]. apply in_flat_map in H. destruct H as [i [Hi H]].
    apply in_map_iff in H. destruct H as [n [<- Hn]]. exists b, t, n, i. auto.
  - intros (b & t & n & i & -> & Hb & Ht & Hn & Hi). apply in_flat_map. exists b. split; [exact Hb|]. apply in_flat_map. exists t. split; [exact Ht|].
    apply in_flat_map. exists i. split; [exact Hi|]. apply in_map_iff. exists n. auto.
Qed.
Lemma calls_registered c x : In x (preregister_calls c) <-> In x (registered c).
Proof.
  unfold preregister_calls, registered. rewrite !in_app_iff, !in_tdi_calls, in_registered_tdi.
  assert (M : In x matrix_calls <-> In x registered_matrix) by (unfold matrix_calls, registered_matrix; cbn [flat_map app In]; tauto).
  rewrite M. split.
  - intros [H|[H|[H|[H|[H|H]]]]]; auto.
    + right. right. left. destruct H as (b & t & n & i & -> & Hb & R). exists b, t, n, i. split; [reflexivity|]. split; [|exact R]. cbn in Hb |- *; tauto.
    + right. right. left. destruct H as (b & t & n & i & -> & Hb & R). exists b, t, n, i. split; [reflexivity|]. split; [|exact R]. cbn in Hb |- *; tauto.
    + right. right. left. destruct H as (b & t & n & i & -> & Hb & R). exists b, t, n, i. split; [reflexivity|]. split; [|exact R]. cbn in Hb |- *; tauto.
  - intros [H|[H|[H|H]]]; auto 8. destruct H as (b & t & n & i & -> & Hb & R). cbn in Hb.
    Ltac pick R := eexists; do 3 eexists; split; [reflexivity|]; split; [cbn; tauto|exact R].
    destruct Hb as [<-|[<-|[<-|[<-|[<-|[<-|[<-|[<-|[<-|[]]]]]]]]]];
      first [solve [right; right; left; pick R] | solve [right; right; right; left; pick R] | solve [right; right; right; right; left; pick R]].
Qed.

(** ** Registration *)
Lemma preregister_some b v x : (exists a, preregister b v x = Some a) <-> exists id, task_id (b_config b) x = Some id.
Proof. unfold preregister. destruct (task_id (b_config b) x) as [id|]; split; intros [z H]; try discriminate H; eexists; reflexivity. Qed.
Lemma preregister_all_some b v xs : (exists a, preregister_all b v xs = Some a) <-> forall x, In x xs -> exists id, task_id (b_config b) x = Some id.
Proof.
  induction xs as [|x xs IH]; cbn [preregister_all].
  - split; [intros _ x []|eexists; reflexivity].
  - destruct (preregister b v x) as [a|] eqn:E.
    + assert (Hx : exists id, task_id (b_config b) x = Some id) by (apply (preregister_some b v); eauto).
      destruct (preregister_all b v xs) as [r|]; split.
      * intros _ y [<-|Hy]; [exact Hx|]. apply (proj1 IH); eauto.
      * eexists; reflexivity.
      * intros [z H]; discriminate H.
      * intros H. destruct (proj2 IH) as [z Hz]; [intros y Hy; apply H; right; exact Hy|discriminate Hz].
    + split; [intros [z H]; discriminate H|]. intros H. destruct (H x (or_introl eq_refl)) as [id Hid]. destruct (proj2 (preregister_some b v x)) as [a Ha]; [eauto|congruence].
Qed.
Lemma task_id_some c x : (exists id, task_id c x = Some id) <->
  match t_params x with
  | PT t => entry_enabled c t
  | PDI _ i => index_enabled c i
  | PTDI t _ i => entry_enabled c t /\ index_enabled c i
  | PTDDDIII t _ _ _ i1 i2 i3 => entry_enabled c t /\ index_enabled c i1 /\ index_enabled c i2 /\ index_enabled c i3
  end.
Proof.
  assert (E : forall t, match entry_type_index c t with Some _ => entry_enabled c t | None => ~ entry_enabled c t end).
  { intros t. unfold entry_type_index, entry_types, entry_enabled. destruct t, (use_f32 c), (use_f64 c); cbn; congruence. }
  assert (I : forall i, match index_type_index c i with Some _ => index_enabled c i | None => ~ index_enabled c i end).
  { intros i. unfold index_type_index, index_types, index_enabled. destruct i, (use_s32 c), (use_u32 c), (use_s64 c); cbn; congruence. }
  unfold task_id. destruct (t_params x) as [t|n i|t n i|t n1 n2 n3 i1 i2 i3].
  - specialize (E t). destruct (entry_type_index c t); split; intros H; try exact E; try (eexists; reflexivity); [destruct H as [z H]; discriminate H|contradiction].
  - specialize (I i). destruct (index_type_index c i); split; intros H; try exact I; try (eexists; reflexivity); [destruct H as [z H]; discriminate H|contradiction].
  - specialize (E t). specialize (I i). destruct (entry_type_index c t), (index_type_index c i); cbv iota in E, I; split; intros H; try (split; assumption); try (eexists; reflexivity);
      try (destruct H as [? H]; discriminate H); destruct H; contradiction.
  - specialize (E t). pose proof (I i1) as I1. pose proof (I i2) as I2. pose proof (I i3) as I3. destruct (entry_type_index c t), (index_type_index c i1), (index_type_index c i2), (index_type_index c i3);
      cbv iota in E, I1, I2, I3; split; intros H; try (repeat split; assumption); try (eexists; reflexivity); try (destruct H as [? H]; discriminate H); destruct H as (? & ? & ? & ?); contradiction.
Qed.
Lemma registered_enabled c x : In x (registered c) -> (exists id, task_id c x = Some id) \/ exists b t n, x = kdr b t n.
Proof.
  unfold registered. rewrite !in_app_iff. intros [H|[H|[H|H]]].
  - left. unfold registered_scalar in H. apply in_flat_map in H. destruct H as [t [Ht H]]. apply in_map_iff in H. destruct H as [b [<- _]]. apply task_id_some. cbn. now apply in_etypes.
  - left. unfold registered_print_index in H. apply in_flat_map in H. destruct H as [i [Hi H]]. apply in_map_iff in H. destruct H as [n [<- _]]. apply task_id_some. cbn. now apply in_itypes.
  - left. apply in_registered_tdi in H. destruct H as (b & t & n & i & -> & _ & Ht & _ & Hi). apply task_id_some. cbn. split; [now apply in_etypes|now apply in_itypes].
  - right. unfold registered_matrix in H. apply in_flat_map in H. destruct H as [t [Ht H]]. cbn in H. repeat destruct H as [<-|H]; try (do 3 eexists; reflexivity). contradiction.
Qed.
(** The library compiles exactly when both entry types and the 64-bit index type are enabled ("TODO: proper guards"). *)
Theorem C94_compiles : forall b print_info verbose, (exists acts, initialize b print_info verbose = Some acts) <-> matrix_types (b_config b).
Proof.
  intros b pi v. unfold initialize.
  assert (K : (exists a, preregister_all b v (preregister_calls (b_config b)) = Some a) <-> matrix_types (b_config b)).
  { rewrite preregister_all_some. split.
    - intros H. assert (H1 : In (kdr COO_MATVEC F32 1) (preregister_calls (b_config b))) by (apply calls_registered; unfold registered; rewrite !in_app_iff; right; right; right; cbn; tauto).
      assert (H2 : In (kdr COO_MATVEC F64 1) (preregister_calls (b_config b))) by (apply calls_registered; unfold registered; rewrite !in_app_iff; right; right; right; cbn; tauto).
      apply H in H1. apply H in H2. apply task_id_some in H1. apply task_id_some in H2. cbn in H1, H2. unfold entry_enabled, index_enabled in *. unfold matrix_types. tauto.
    - intros (A & B & C) x Hx. apply calls_registered in Hx. destruct (registered_enabled _ _ Hx) as [H|(bb & t & n & ->)]; [exact H|].
      apply task_id_some. cbn. unfold entry_enabled, index_enabled. destruct t; auto. }
  rewrite <- K. destruct (preregister_all b v _); split; intros [z H]; try discriminate H; eexists; reflexivity.
Qed.

Lemma variants_app a b : variants (a ++ b) = variants a ++ variants b.
Proof. unfold variants. apply flat_map_app. Qed.
Lemma printed_app a b : printed (a ++ b) = printed a ++ printed b.
Proof. unfold printed. apply flat_map_app. Qed.
Lemma variants_register v id name k f : variants (register_variant v id name k f) = [(id, name, k, f)].
Proof. destruct v; reflexivity. Qed.
Lemma printed_register v id name k f : printed (register_variant v id name k f) = if v then [register_line name id] else [].
Proof. destruct v; reflexivity. Qed.
(** the kinds of processor a task gets a variant for *)
Definition kinds (b : build) (x : task) : list proc :=
  LOC_PROC :: match t_params x with PT _ | PDI _ _ => [] | _ => if own_gpu_code b && has_cuda_variant (t_block x) then [TOC_PROC] else [] end.
Lemma preregister_variants b v x a : preregister b v x = Some a -> exists id, task_id (b_config b) x = Some id /\
  variants a = map (fun k => (id, task_name x, k, registrar_of (t_block x))) (kinds b x) /\
  printed a = if v then map (fun _ => register_line (task_name x) id) (kinds b x) else [].
Proof.
  unfold preregister, kinds. destruct (task_id (b_config b) x) as [id|]; [|discriminate]. intros H. injection H as <-. exists id. split; [reflexivity|].
  rewrite variants_app, printed_app, variants_register, printed_register.
  destruct (t_params x); [destruct v; split; reflexivity ..| |]; destruct (own_gpu_code b && has_cuda_variant (t_block x)); rewrite ?variants_register, ?printed_register; destruct v; split; reflexivity.
Qed.
Definition id_of (c : config) (x : task) : Z := match task_id c x with Some id => id | None => 0 end.
Lemma preregister_all_variants b v xs a : preregister_all b v xs = Some a ->
  variants a = flat_map (fun x => map (fun k => (id_of (b_config b) x, task_name x, k, registrar_of (t_block x))) (kinds b x)) xs /\
  printed a = if v then flat_map (fun x => map (fun _ => register_line (task_name x) (id_of (b_config b) x)) (kinds b x)) xs else [].
Proof.
  revert a. induction xs as [|x xs IH]; intros a; cbn [preregister_all flat_map].
  - intros H. injection H as <-. destruct v; split; reflexivity.
  - destruct (preregister b v x) as [a1|] eqn:E; [|discriminate]. destruct (preregister_all b v xs) as [r|]; [|discriminate]. intros H. injection H as <-.
    destruct (preregister_variants _ _ _ E) as (id & Hid & Hv & Hp). destruct (IH _ eq_refl) as [IH1 IH2]. unfold id_of at 1 3. rewrite Hid.
    rewrite variants_app, printed_app, Hv, Hp, IH1, IH2. destruct v; split; reflexivity.
Qed.
Lemma initialize_variants b pi v acts : initialize b pi v = Some acts ->
  variants acts = flat_map (fun x => map (fun k => (id_of (b_config b) x, task_name x, k, registrar_of (t_block x))) (kinds b x)) (preregister_calls (b_config b)) ++
    guard (own_gpu_code b) [(load_cuda_libs_id (b_config b), "load_cuda_libs", TOC_PROC, mk_registrar true false false false)] /\
  printed acts = guard pi (info_lines b) ++ if v then map (fun x => register_line (snd (fst (fst x))) (fst (fst (fst x)))) (variants acts) else [].
Proof.
  unfold initialize. destruct (preregister_all b v _) as [r|] eqn:E; [|discriminate]. intros H. apply (f_equal (fun o => match o with Some a => a | None => [] end)) in H. cbv beta iota in H. subst acts. destruct (preregister_all_variants _ _ _ E) as [HV HP].
  rewrite !variants_app, !printed_app, HV, HP.
  assert (G : variants (guard pi (map Says (info_lines b))) = []).
  { unfold guard. destruct pi; [|reflexivity]. unfold variants. induction (info_lines b); [reflexivity|assumption]. }
  assert (G2 : printed (guard pi (map Says (info_lines b))) = guard pi (info_lines b)).
  { unfold guard. destruct pi; [|reflexivity]. unfold printed. induction (info_lines b) as [|z l IH]; [reflexivity|]. cbn [map flat_map app]. now rewrite IH. }
  rewrite G, G2.
  assert (G3 : variants (guard (own_gpu_code b) (preregister_load_cuda_libs b v)) = guard (own_gpu_code b) [(load_cuda_libs_id (b_config b), "load_cuda_libs", TOC_PROC, mk_registrar true false false false)]).
  { unfold guard, preregister_load_cuda_libs. destruct (own_gpu_code b); [apply variants_register|reflexivity]. }
  assert (G4 : printed (guard (own_gpu_code b) (preregister_load_cuda_libs b v)) = if v then guard (own_gpu_code b) [register_line "load_cuda_libs" (load_cuda_libs_id (b_config b))] else []).
  { unfold guard, preregister_load_cuda_libs. destruct (own_gpu_code b); [apply printed_register|destruct v; reflexivity]. }
  rewrite G3, G4. split; [reflexivity|]. cbn [variants printed flat_map app]. f_equal. destruct v; [|reflexivity].
  rewrite map_app. f_equal.
  - clear E HV HP. induction (preregister_calls (b_config b)) as [|x xs IH]; [reflexivity|]. cbn [flat_map]. rewrite map_app, map_map, IH. reflexivity.
  - unfold guard. destruct (own_gpu_code b); reflexivity.
Qed.

(** Exactly the expected variants are registered. *)
Theorem C94_variants : forall b print_info verbose acts, config_ok (b_config b) -> initialize b print_info verbose = Some acts ->
  forall v, In v (variants acts) <-> expected_variant b v.
Proof.
  intros b pi vb acts OK H v. pose proof (proj1 (C94_compiles b pi vb) (ex_intro _ _ H)) as MT. destruct (initialize_variants _ _ _ H) as [-> _]. rewrite in_app_iff, in_flat_map. destruct v as [[[id name] k] f].
  assert (L : load_cuda_libs_id (b_config b) = id_origin (b_config b)).
  { unfold load_cuda_libs_id, LOAD_CUDA_LIBS, u32. destruct OK as (Q1 & Q2 & Q3). rewrite Z.add_0_r, Z.mod_small; [reflexivity|]. pose proof (num_entry_pos (b_config b)).
    assert (0 <= block_size (b_config b)) by (rewrite block_size_eq; nia). lia. }
  unfold expected_variant. rewrite L. split.
  - intros [[x [Hx Hin]]|Hg].
    + left. apply calls_registered in Hx. apply in_map_iff in Hin. destruct Hin as [k' [E Hk]]. injection E as <- <- -> <-. exists x. split; [exact Hx|].
      split. { unfold id_of. destruct (task_id (b_config b) x) eqn:E; [reflexivity|]. exfalso.
        destruct (registered_enabled _ _ Hx) as [[z Hz]|(bb & t & n & ->)]; [congruence|]. destruct MT as (M1 & M2 & M3).
        destruct (proj2 (task_id_some (b_config b) (kdr bb t n))) as [z Hz]; [cbn; unfold entry_enabled, index_enabled; destruct t; auto|congruence]. }
      split; [reflexivity|]. split; [reflexivity|]. unfold kinds in Hk. destruct Hk as [<-|Hk]; [left; reflexivity|right].
      assert (Q : In k (if own_gpu_code b && has_cuda_variant (t_block x) then [TOC_PROC] else [])) by (destruct (t_params x); try contradiction; exact Hk).
      destruct (own_gpu_code b) eqn:G; [|destruct Q]. destruct (has_cuda_variant (t_block x)) eqn:HC; [|destruct Q]. destruct Q as [<-|[]].
      split; [reflexivity|]. unfold own_gpu_code in G. apply andb_true_iff in G. destruct G as [G1 G2]. apply negb_true_iff in G2. split; [|auto].
      unfold gpu_task. destruct (t_block x); try discriminate HC; cbn; tauto.
    + right. unfold guard in Hg. destruct (own_gpu_code b) eqn:G; [|destruct Hg]. destruct Hg as [E|[]]. injection E as <- <- <- <-.
      unfold own_gpu_code in G. apply andb_true_iff in G. destruct G as [G1 G2]. apply negb_true_iff in G2. auto 10.
  - intros [(x & Hx & Hid & -> & -> & Hk)|(G1 & G2 & -> & -> & -> & ->)].
    + left. exists x. split; [apply calls_registered; exact Hx|]. apply in_map_iff. exists k. unfold id_of. rewrite Hid. split; [reflexivity|].
      unfold kinds. destruct Hk as [->|(-> & Hg & G1 & G2)]; [left; reflexivity|right]. destruct x as [bl p]. pose proof (registered_shape _ _ _ Hx) as Hs. cbn [t_block t_params] in *.
      assert (Q : In TOC_PROC (if own_gpu_code b && has_cuda_variant bl then [TOC_PROC] else [])).
      { unfold own_gpu_code. rewrite G1, G2. unfold gpu_task in Hg. cbn in Hg. repeat destruct Hg as [<-|Hg]; cbn; try tauto. }
      destruct p; try exact Q; exfalso; unfold gpu_task in Hg; cbn in Hg; repeat destruct Hg as [<-|Hg]; try discriminate Hs; contradiction.
    + right. unfold own_gpu_code, guard. rewrite G1, G2. left. reflexivity.
Qed.

(** ** Every (task id, processor kind) is registered once *)
Definition task_eq_dec (x y : task) : {x = y} + {x <> y}.
Proof. decide equality; decide equality; try apply Z.eq_dec; decide equality. Defined.
Fixpoint nodupb {X} (dec : forall x y : X, {x = y} + {x <> y}) (l : list X) : bool := match l with [] => true | x :: r => (if in_dec dec x r then false else true) && nodupb dec r end.
Lemma nodupb_ok X (dec : forall x y : X, {x = y} + {x <> y}) l : nodupb dec l = true -> NoDup l.
Proof. induction l as [|x l IH]; cbn; [constructor|]. intros H. apply andb_true_iff in H. destruct H as [H1 H2]. destruct (in_dec dec x l) as [|N]; [discriminate|]. constructor; auto. Qed.
Lemma NoDup_map_on X Y (f : X -> Y) l : NoDup l -> (forall x y, In x l -> In y l -> f x = f y -> x = y) -> NoDup (map f l).
Proof.
  induction l as [|x l IH]; intros N I; cbn; [constructor|]. inversion N as [|? ? N1 N2]. constructor.
  - intros Q. apply in_map_iff in Q. destruct Q as [y [E Hy]]. apply N1. rewrite (I x y); auto using in_eq, in_cons.
  - apply IH; [assumption|]. intros; apply I; auto using in_cons.
Qed.
Lemma calls_nodup c : matrix_types c -> 2 <= max_dim c -> NoDup (preregister_calls c).
Proof.
  intros (A & B & C) D. unfold preregister_calls, scalar_calls, print_index_calls, tdi_calls, etypes_registered, itypes_registered, dims_registered. rewrite A, B, C.
  replace (1 <=? max_dim c) with true by (symmetry; apply Z.leb_le; lia). replace (2 <=? max_dim c) with true by (symmetry; apply Z.leb_le; lia).
  destruct (use_s32 c), (use_u32 c), (3 <=? max_dim c); apply (nodupb_ok task_eq_dec); vm_compute; reflexivity.
Qed.
(** the id without the origin and the wrap-around *)
Definition rel (c : config) (x : task) : option Z :=
  match t_params x with
  | PT t => match entry_type_index c t with Some ti => Some (1 + block_size c * block_id (t_block x) + ti) | None => None end
  | PDI n i => match index_type_index c i with Some ii => Some (1 + block_size c * block_id (t_block x) + max_dim c * ii + (n - 1)) | None => None end
  | PTDI t n i => match entry_type_index c t, index_type_index c i with
      | Some ti, Some ii => Some (1 + block_size c * block_id (t_block x) + num_entry c * max_dim c * ii + num_entry c * (n - 1) + ti) | _, _ => None end
  | PTDDDIII t n1 n2 n3 i1 i2 i3 =>
      match entry_type_index c t, index_type_index c i1, index_type_index c i2, index_type_index c i3 with
      | Some ti, Some j1, Some j2, Some j3 =>
          Some (1 + block_size c * block_id (t_block x) + num_index_3 c * num_entry c * max_dim_2 c * (n1 - 1) + num_index_3 c * num_entry c * max_dim_1 c * (n2 - 1)
                + num_index_3 c * num_entry c * max_dim_0 c * (n3 - 1) + num_index_2 c * num_entry c * j1 + num_index_1 c * num_entry c * j2 + num_index_0 c * num_entry c * j3 + ti)
      | _, _, _, _ => None
      end
  end.
Lemma task_id_rel c x : task_id c x = option_map (fun k => u32 (id_origin c + k)) (rel c x).
Proof.
  unfold task_id, rel, block_origin, NUM_META_TASK_IDS. destruct (t_params x).
  - destruct (entry_type_index c t); [|reflexivity]. cbn [option_map]. f_equal. f_equal. ring.
  - destruct (index_type_index c i); [|reflexivity]. cbn [option_map]. f_equal. f_equal. ring.
  - destruct (entry_type_index c t), (index_type_index c i); try reflexivity. cbn [option_map]. f_equal. f_equal. ring.
  - destruct (entry_type_index c t), (index_type_index c i1), (index_type_index c i2), (index_type_index c i3); try reflexivity. cbn [option_map]. f_equal. f_equal. ring.
Qed.
Definition rel_id (c : config) (x : task) : Z := match rel c x with Some k => k | None => 0 end.
Lemma rel_two c : matrix_types c -> max_dim c = 2 ->
  NoDup (map (rel_id c) (preregister_calls c)) /\ Forall (fun x => 1 <= rel_id c x <= 28 * block_size c) (preregister_calls c).
Proof.
  intros (A & B & C) D. destruct c as [f32 f64 s32 u32' s64 md org]. cbn [use_f32 use_f64 use_s64 max_dim] in A, B, C, D. subst.
  assert (K : forall l bs r, nodupb Z.eq_dec (map r l) && forallb (fun x => (1 <=? r x) && (r x <=? 28 * bs)) l = true -> NoDup (map r l) /\ Forall (fun x : task => 1 <= r x <= 28 * bs) l).
  { intros l bs r H. apply andb_true_iff in H. destruct H as [H1 H2]. split; [exact (nodupb_ok _ _ H1)|]. apply Forall_forall. intros x Hx.
    rewrite forallb_forall in H2. specialize (H2 x Hx). apply andb_true_iff in H2. destruct H2 as [Q1 Q2]. apply Z.leb_le in Q1. apply Z.leb_le in Q2. lia. }
  apply K. destruct s32, u32'; vm_compute; reflexivity.
Qed.
Lemma registered_supported c x : matrix_types c -> 3 <= max_dim c -> In x (registered c) -> supported c x.
Proof.
  intros (A & B & C) D. unfold registered. rewrite !in_app_iff. intros [H|[H|[H|H]]].
  - unfold registered_scalar in H. apply in_flat_map in H. destruct H as [t [Ht H]]. apply in_etypes in Ht. apply in_map_iff in H. destruct H as [b [<- Hb]]. cbn in Hb.
    repeat destruct Hb as [<-|Hb]; try exact Ht. contradiction.
  - unfold registered_print_index in H. apply in_flat_map in H. destruct H as [i [Hi H]]. apply in_itypes in Hi. apply in_map_iff in H. destruct H as [n [<- Hn]]. apply in_dims in Hn. cbn. unfold dim_supported. tauto.
  - apply in_registered_tdi in H. destruct H as (b & t & n & i & -> & Hb & Ht & Hn & Hi). apply in_etypes in Ht. apply in_itypes in Hi. apply in_dims in Hn. cbn in Hb.
    repeat destruct Hb as [<-|Hb]; solve [cbn; unfold dim_supported; tauto | contradiction].
  - unfold registered_matrix in H. apply in_flat_map in H. destruct H as [t [Ht H]]. cbn in H. assert (Et : entry_enabled c t) by (unfold entry_enabled; destruct t; assumption).
    repeat destruct H as [<-|H]; try contradiction; cbn; unfold dim_supported, index_enabled; repeat split; try assumption; lia.
Qed.
Lemma ids_inj c x y : config_ok c -> matrix_types c -> 2 <= max_dim c -> In x (preregister_calls c) -> In y (preregister_calls c) -> id_of c x = id_of c y -> x = y.
Proof.
  intros OK MT D Hx Hy E. destruct (Z.eq_dec (max_dim c) 2) as [D2|D2].
  - destruct (rel_two MT D2) as [N F]. rewrite Forall_forall in F.
    assert (I : forall z, In z (preregister_calls c) -> id_of c z = id_origin c + rel_id c z).
    { intros z Hz. pose proof (F z Hz) as R. unfold id_of, rel_id in *. rewrite task_id_rel. destruct (rel c z) as [k|]; [|lia]. cbn [option_map]. unfold u32. destruct OK as (O1 & O2 & O3). apply Z.mod_small. lia. }
    rewrite (I x Hx), (I y Hy) in E. assert (E' : rel_id c x = rel_id c y) by lia. clear - N Hx Hy E'.
    induction (preregister_calls c) as [|z l IH]; [destruct Hx|]. cbn in N. inversion N as [|? ? N1 N2]. subst. destruct Hx as [->|Hx], Hy as [->|Hy]; auto.
    + exfalso. apply N1. rewrite E'. apply in_map. exact Hy.
    + exfalso. apply N1. rewrite <- E'. apply in_map. exact Hx.
  - pose proof (registered_supported _ MT ltac:(lia) (proj1 (calls_registered c x) Hx)) as Sx. pose proof (registered_supported _ MT ltac:(lia) (proj1 (calls_registered c y) Hy)) as Sy.
    destruct (C30_task_ids_injective _ _ OK Sx Sy) as (i & j & Hi & Hj & I). unfold id_of in E. rewrite Hi, Hj in E. exact (I E).
Qed.
Lemma ids_not_origin c x : config_ok c -> matrix_types c -> 2 <= max_dim c -> In x (preregister_calls c) -> id_of c x <> load_cuda_libs_id c.
Proof.
  intros OK MT D Hx. destruct (Z.eq_dec (max_dim c) 2) as [D2|D2].
  - destruct (rel_two MT D2) as [N F]. rewrite Forall_forall in F. pose proof (F x Hx) as R. unfold id_of, rel_id in *. rewrite task_id_rel. destruct (rel c x) as [k|]; [|lia].
    cbn [option_map]. unfold load_cuda_libs_id, LOAD_CUDA_LIBS, u32. destruct OK as (O1 & O2 & O3). rewrite !Z.mod_small; lia.
  - pose proof (registered_supported _ MT ltac:(lia) (proj1 (calls_registered c x) Hx)) as Sx. destruct (C30_task_ids_in_their_block _ OK Sx) as (i & Hi & _ & Hn & _). unfold id_of. rewrite Hi. exact Hn.
Qed.
Lemma NoDup_flat X Y (f : X -> Z) (g : X -> list Y) l : NoDup l -> (forall x y, In x l -> In y l -> f x = f y -> x = y) -> (forall x, In x l -> NoDup (g x)) ->
  NoDup (flat_map (fun x => map (fun k => (f x, k)) (g x)) l).
Proof.
  induction l as [|x l IH]; intros N I G; cbn [flat_map]; [constructor|]. inversion N as [|? ? N1 N2]. subst.
  assert (R : NoDup (flat_map (fun x => map (fun k => (f x, k)) (g x)) l)) by (apply IH; [assumption|intros; apply I; auto using in_cons|intros; apply G; auto using in_cons]).
  assert (Q : NoDup (map (fun k => (f x, k)) (g x))) by (apply FinFun.Injective_map_NoDup; [intros a b E; now injection E|apply G; left; reflexivity]).
  assert (D : forall z, In z (map (fun k => (f x, k)) (g x)) -> ~ In z (flat_map (fun x => map (fun k => (f x, k)) (g x)) l)).
  { intros z Hz Hz'. apply in_map_iff in Hz. destruct Hz as [k [<- _]]. apply in_flat_map in Hz'. destruct Hz' as [y [Hy Hz]]. apply in_map_iff in Hz. destruct Hz as [k' [E _]]. injection E as E _.
    apply N1. rewrite (I x y); auto using in_eq, in_cons. }
  clear - R Q D. induction (map (fun k => (f x, k)) (g x)) as [|z m IH]; [exact R|]. inversion Q as [|? ? Q1 Q2]. subst. cbn. constructor.
  - rewrite in_app_iff. intros [H|H]; [exact (Q1 H)|exact (D z (or_introl eq_refl) H)].
  - apply IH; [assumption|]. intros; apply D; right; assumption.
Qed.
Lemma kinds_nodup b x : NoDup (kinds b x).
Proof.
  unfold kinds. assert (N : NoDup [LOC_PROC]) by (constructor; [intros []|constructor]).
  assert (N2 : NoDup [LOC_PROC; TOC_PROC]) by (constructor; [intros [E|[]]; discriminate E|constructor; [intros []|constructor]]).
  destruct (t_params x); try exact N; destruct (own_gpu_code b && has_cuda_variant (t_block x)); assumption.
Qed.
(** No two variants share task id and processor kind (for dimensions up to two or more)... *)
Theorem C94_once : forall b print_info verbose acts, config_ok (b_config b) -> 2 <= max_dim (b_config b) -> initialize b print_info verbose = Some acts ->
  NoDup (map (fun v : Z * string * proc * registrar => let '(id, _, kind, _) := v in (id, kind)) (variants acts)).
Proof.
  intros b pi vb acts OK D H. pose proof (proj1 (C94_compiles b pi vb) (ex_intro _ _ H)) as MT. destruct (initialize_variants _ _ _ H) as [-> _]. rewrite map_app.
  assert (M : forall l, map (fun v : Z * string * proc * registrar => let '(id, _, kind, _) := v in (id, kind))
      (flat_map (fun x => map (fun k => (id_of (b_config b) x, task_name x, k, registrar_of (t_block x))) (kinds b x)) l) =
      flat_map (fun x => map (fun k => (id_of (b_config b) x, k)) (kinds b x)) l).
  { induction l as [|x l IH]; [reflexivity|]. cbn [flat_map]. rewrite map_app, IH, map_map. reflexivity. }
  rewrite M. clear M.
  pose proof (NoDup_flat (id_of (b_config b)) (kinds b) (calls_nodup MT D) (fun x y => @ids_inj _ x y OK MT D) (fun x _ => kinds_nodup b x)) as N.
  unfold guard. destruct (own_gpu_code b); [|rewrite app_nil_r; exact N]. cbn [map]. apply NoDup_Add with (a := (load_cuda_libs_id (b_config b), TOC_PROC)) (l := flat_map (fun x => map (fun k => (id_of (b_config b) x, k)) (kinds b x)) (preregister_calls (b_config b))).
  - replace (flat_map (fun x => map (fun k => (id_of (b_config b) x, k)) (kinds b x)) (preregister_calls (b_config b))) with
      (flat_map (fun x => map (fun k => (id_of (b_config b) x, k)) (kinds b x)) (preregister_calls (b_config b)) ++ []) at 1 by apply app_nil_r. apply Add_app.
  - split; [exact N|]. intros Hin. apply in_flat_map in Hin. destruct Hin as [x [Hx Hin]]. apply in_map_iff in Hin. destruct Hin as [k [E _]]. injection E as E _.
    exact (ids_not_origin _ OK MT D Hx E).
Qed.

(** ... but with LEGION_SOLVERS_MAX_DIM = 1 some do: printing a COO matrix over two-dimensional spaces has the same id as the transposed CSR product, in both entry types
    (and printing over three-dimensional spaces the same as the Laplacian fill). *)
Theorem C94_one_dimension : forall b print_info verbose acts t, config_ok (b_config b) -> max_dim (b_config b) = 1 -> initialize b print_info verbose = Some acts ->
  exists id id' flags flags' flags2 flags2',
    In (id, task_name (kdr COO_PRINT t 2), LOC_PROC, flags) (variants acts) /\ In (id, task_name (kdr CSR_RMATVEC t 1), LOC_PROC, flags') (variants acts) /\
    task_name (kdr COO_PRINT t 2) <> task_name (kdr CSR_RMATVEC t 1) /\
    In (id', task_name (kdr COO_PRINT t 3), LOC_PROC, flags2) (variants acts) /\ In (id', task_name (kdr FILL_COO_LAPLACIAN t 1), LOC_PROC, flags2') (variants acts) /\
    task_name (kdr COO_PRINT t 3) <> task_name (kdr FILL_COO_LAPLACIAN t 1).
Proof.
  intros b pi vb acts t OK D H. pose proof (proj1 (C94_compiles b pi vb) (ex_intro _ _ H)) as MT. pose proof (C94_variants _ _ _ OK H) as V.
  assert (E : exists i, task_id (b_config b) (kdr CSR_RMATVEC t 1) = Some i) by (apply task_id_some; cbn; unfold entry_enabled, index_enabled; destruct MT as (A & B & C), t; auto).
  assert (E' : exists i, task_id (b_config b) (kdr FILL_COO_LAPLACIAN t 1) = Some i) by (apply task_id_some; cbn; unfold entry_enabled, index_enabled; destruct MT as (A & B & C), t; auto).
  destruct E as [i Hi], E' as [i' Hi'].
  assert (Q : task_id (b_config b) (kdr COO_PRINT t 2) = Some i /\ task_id (b_config b) (kdr COO_PRINT t 3) = Some i').
  { rewrite <- Hi, <- Hi'. destruct b as [[f32 f64 s32 u32' s64 md org] cu ko]. cbn [b_config] in *. destruct MT as (A & B & C). cbn [max_dim use_f32 use_f64 use_s64] in A, B, C, D. subst.
    rewrite !task_id_rel. split; f_equal; destruct t, s32, u32'; vm_compute; reflexivity. }
  destruct Q as [Q Q'].
  assert (R : forall x, In x registered_matrix -> In x (registered (b_config b))) by (intros x Hx; unfold registered; rewrite !in_app_iff; auto).
  exists i, i'. do 4 eexists. repeat apply conj.
  - apply V. left. exists (kdr COO_PRINT t 2). split; [apply R; destruct t; cbn; tauto|]. split; [exact Q|]. split; [reflexivity|]. split; [reflexivity|]. left. reflexivity.
  - apply V. left. exists (kdr CSR_RMATVEC t 1). split; [apply R; destruct t; cbn; tauto|]. split; [exact Hi|]. split; [reflexivity|]. split; [reflexivity|]. left. reflexivity.
  - destruct t; vm_compute; discriminate.
  - apply V. left. exists (kdr COO_PRINT t 3). split; [apply R; destruct t; cbn; tauto|]. split; [exact Q'|]. split; [reflexivity|]. split; [reflexivity|]. left. reflexivity.
  - apply V. left. exists (kdr FILL_COO_LAPLACIAN t 1). split; [apply R; destruct t; cbn; tauto|]. split; [exact Hi'|]. split; [reflexivity|]. split; [reflexivity|]. left. reflexivity.
  - destruct t; vm_compute; discriminate.
Qed.

(** ** Names *)
(** all dimensions of a task *)
Definition dims_of (x : task) : list Z := match t_params x with PT _ => [] | PDI n _ => [n] | PTDI _ n _ => [n] | PTDDDIII _ n1 n2 n3 _ _ _ => [n1; n2; n3] end.
Definition shaped (x : task) : Prop := block_shape (t_block x) = params_shape (t_params x).
Fixpoint strip (p s : string) : option string :=
  match p, s with
  | EmptyString, _ => Some s
  | String a p, String b s => if Ascii.eqb a b then strip p s else None
  | String _ _, EmptyString => None
  end.
Lemma strip_app p s : strip p (p +++ s) = Some s.
Proof. induction p as [|a p IH]; cbn; [reflexivity|]. rewrite Ascii.eqb_refl. exact IH. Qed.
Definition all_blocks : list block :=
  [PRINT_SCALAR; NEGATE_SCALAR; ADD_SCALAR; SUBTRACT_SCALAR; MULTIPLY_SCALAR; DIVIDE_SCALAR; SQRT_SCALAR; RSQRT_SCALAR; DUMMY; PRINT_INDEX; RANDOM_FILL; SCAL; AXPY; XPAY; DOT;
   COO_MATVEC; COO_RMATVEC; COO_PRINT; CSR_MATVEC; CSR_RMATVEC; CSR_PRINT; FILL_COO_LAPLACIAN; FILL_CSR_LAPLACIAN_ROWPTR; FILL_CSR_LAPLACIAN;
   FILL_COO_STENCIL; FILL_CSR_STENCIL; FILL_LINEARIZED_COO_STENCIL; FILL_LINEARIZED_CSR_STENCIL].
(** the first class whose name with an underscore begins the string (the row pointer fill before the fill whose name it extends) *)
Definition block_of_name (s : string) : option block := find (fun b => match strip (task_base_name b +++ "_") s with Some _ => true | None => false end) all_blocks.
Definition params_name (p : params) : string :=
  match p with
  | PT t => entry_name t
  | PDI n i => decimal n +++ "_" +++ index_name i
  | PTDI t n i => entry_name t +++ "_" +++ decimal n +++ "_" +++ index_name i
  | PTDDDIII t n1 n2 n3 i1 i2 i3 => entry_name t +++ "_" +++ decimal n1 +++ decimal n2 +++ decimal n3 +++ "_" +++ index_name i1 +++ "_" +++ index_name i2 +++ "_" +++ index_name i3
  end.
Lemma append_assoc a b c : (a +++ b) +++ c = a +++ (b +++ c).
Proof. induction a as [|x a IH]; cbn; [reflexivity|now rewrite IH]. Qed.
Lemma task_name_split x : task_name x = (task_base_name (t_block x) +++ "_") +++ params_name (t_params x).
Proof. unfold task_name, params_name. rewrite append_assoc. f_equal. destruct (t_params x); reflexivity. Qed.
Lemma block_of_task_name x : shaped x -> block_of_name (task_name x) = Some (t_block x).
Proof.
  intros S. rewrite task_name_split. destruct x as [b p]. unfold shaped in S. cbn [t_block t_params] in *. 
  destruct p as [t|n i|t n i|t n1 n2 n3 i1 i2 i3]; unfold params_name; destruct b; try discriminate S; clear S; try destruct t; reflexivity.
Qed.
Lemma decimal_digits n : 1 <= n <= 10 -> n = 1 \/ n = 2 \/ n = 3 \/ n = 4 \/ n = 5 \/ n = 6 \/ n = 7 \/ n = 8 \/ n = 9 \/ n = 10. Proof. lia. Qed.
Definition not_zero (s : string) : Prop := match s with String a _ => a <> "0"%char | _ => True end.
Lemma decimal_app_inj n m s t : 1 <= n <= 10 -> 1 <= m <= 10 -> not_zero s -> not_zero t -> decimal n +++ s = decimal m +++ t -> n = m /\ s = t.
Proof.
  intros Hn Hm Hs Ht H. apply decimal_digits in Hn, Hm.
  destruct Hn as [->|[->|[->|[->|[->|[->|[->|[->|[->| ->]]]]]]]]], Hm as [->|[->|[->|[->|[->|[->|[->|[->|[->| ->]]]]]]]]]; cbn in H; try discriminate H; injection H as H;
    try (split; [reflexivity|exact H]); exfalso; subst; cbn in *; congruence.
Qed.
Lemma decimal_not_zero n s : 1 <= n <= 10 -> not_zero (decimal n +++ s).
Proof. intros H. apply decimal_digits in H. destruct H as [->|[->|[->|[->|[->|[->|[->|[->|[->| ->]]]]]]]]]; cbn; discriminate. Qed.
Lemma index_app_inj i j s t : index_name i +++ "_" +++ s = index_name j +++ "_" +++ t -> i = j /\ s = t.
Proof. destruct i, j; cbn; intros H; try discriminate H; injection H as H; auto. Qed.
Lemma index_name_inj i j : index_name i = index_name j -> i = j.
Proof. destruct i, j; cbn; intros H; congruence. Qed.
Lemma entry_app_inj t u s s' : entry_name t +++ "_" +++ s = entry_name u +++ "_" +++ s' -> t = u /\ s = s'.
Proof. destruct t, u; cbn; intros H; try discriminate H; injection H as H; auto. Qed.
Lemma underscore_inj s t : "_" +++ s = "_" +++ t -> s = t. Proof. intros H. now injection H. Qed.
Lemma name_inj x y : shaped x -> shaped y -> Forall (fun n => 1 <= n <= 10) (dims_of x) -> Forall (fun n => 1 <= n <= 10) (dims_of y) -> task_name x = task_name y -> x = y.
Proof.
  intros Sx Sy Dx Dy H. pose proof (block_of_task_name Sx) as Bx. pose proof (block_of_task_name Sy) as By. rewrite H, By in Bx. injection Bx as B. rewrite !task_name_split, <- B in H.
  apply (f_equal (strip (task_base_name (t_block y) +++ "_"))) in H. rewrite B, !strip_app in H. injection H as H. destruct x as [b p], y as [b' p']. unfold shaped, dims_of in *. cbn [t_block t_params] in *. subst b'.
  f_equal. rewrite Sx in Sy. clear Sx By.
  assert (NZ : forall s, not_zero ("_" +++ s)) by (intros; cbn; discriminate).
  destruct p as [t|n i|t n i|t n1 n2 n3 i1 i2 i3], p' as [t'|n' i'|t' n' i'|t' n1' n2' n3' i1' i2' i3']; try discriminate Sy; cbn [params_name] in H; clear Sy;
    repeat match goal with F : Forall _ (_ :: _) |- _ => let Q := fresh in inversion F as [|? ? Q ?]; subst; clear F end.
  - destruct t, t'; try discriminate H; reflexivity.
  - apply decimal_app_inj in H; try assumption; try apply NZ. destruct H as [-> H]. apply underscore_inj in H. now rewrite (index_name_inj _ _ H).
  - apply entry_app_inj in H. destruct H as [-> H]. apply decimal_app_inj in H; try assumption; try apply NZ. destruct H as [-> H]. apply underscore_inj in H. now rewrite (index_name_inj _ _ H).
  - apply entry_app_inj in H. destruct H as [-> H].
    apply decimal_app_inj in H; try assumption; try (apply decimal_not_zero; assumption). destruct H as [-> H].
    apply decimal_app_inj in H; try assumption; try (apply decimal_not_zero; assumption). destruct H as [-> H].
    apply decimal_app_inj in H; try assumption; try apply NZ. destruct H as [-> H]. apply underscore_inj in H.
    apply index_app_inj in H. destruct H as [-> H]. apply index_app_inj in H. destruct H as [-> H]. now rewrite (index_name_inj _ _ H).
Qed.
Lemma supported_shaped c x : supported c x -> shaped x.
Proof. unfold supported, shaped. destruct x as [b p]. cbn [t_block t_params]. destruct (block_shape b), p; try contradiction; reflexivity. Qed.
Lemma supported_dims c x : supported c x -> Forall (fun n => 1 <= n <= max_dim c) (dims_of x).
Proof. unfold supported, dims_of. destruct x as [b p]. cbn [t_block t_params]. destruct (block_shape b), p; try contradiction; unfold dim_supported; intros H; repeat constructor; tauto. Qed.
(** A name stands for one task: for all task instances of a library with up to ten dimensions, and for the registered ones in any case; names and ids therefore identify
    each other. *)
Theorem C94_names : forall c x y, config_ok c ->
  (max_dim c <= 10 -> supported c x -> supported c y -> (task_name x = task_name y <-> task_id c x = task_id c y)) /\
  (In x (registered c) -> In y (registered c) -> task_name x = task_name y -> x = y).
Proof.
  intros c x y OK. split.
  - intros D Sx Sy. destruct (C30_task_ids_injective _ _ OK Sx Sy) as (i & j & Hi & Hj & I). rewrite Hi, Hj. split.
    + intros H. assert (E : x = y); [|subst; congruence].
      apply name_inj; try exact H; try (eapply supported_shaped; eassumption); (eapply Forall_impl; [|eapply supported_dims; eassumption]); cbn; intros; lia.
    + intros H. injection H as H. rewrite (I H). reflexivity.
  - intros Hx Hy H. destruct x as [b p], y as [b' p'].
    assert (DD : forall z, In z (registered c) -> Forall (fun n => 1 <= n <= 10) (dims_of z)).
    { intros z. unfold registered. rewrite !in_app_iff. intros [Q|[Q|[Q|Q]]].
      - unfold registered_scalar in Q. apply in_flat_map in Q. destruct Q as [t [_ Q]]. apply in_map_iff in Q. destruct Q as [bb [<- _]]. constructor.
      - unfold registered_print_index in Q. apply in_flat_map in Q. destruct Q as [t [_ Q]]. apply in_map_iff in Q. destruct Q as [n [<- Hn]]. apply in_dims in Hn. cbn. constructor; [lia|constructor].
      - apply in_registered_tdi in Q. destruct Q as (bb & t & n & i & -> & _ & _ & Hn & _). apply in_dims in Hn. cbn. constructor; [lia|constructor].
      - unfold registered_matrix in Q. apply in_flat_map in Q. destruct Q as [t [_ Q]]. cbn in Q. repeat destruct Q as [<-|Q]; try contradiction; cbn; repeat constructor; lia. }
    apply name_inj; try exact H; auto; unfold shaped; cbn; eapply registered_shape; eassumption.
Qed.
(** With eleven dimensions or more two different tasks share a name, since the dimensions are written without a separator. *)
Theorem C94_ambiguous_names : forall c t i, config_ok c -> 11 <= max_dim c -> entry_enabled c t -> index_enabled c i ->
  let x := mk_task COO_MATVEC (PTDDDIII t 1 11 1 i i i) in let y := mk_task COO_MATVEC (PTDDDIII t 11 1 1 i i i) in
  supported c x /\ supported c y /\ task_name x = task_name y /\ task_id c x <> task_id c y.
Proof.
  intros c t i OK D Ht Hi x y. assert (Sx : supported c x) by (cbn; unfold dim_supported; repeat split; try assumption; lia). assert (Sy : supported c y) by (cbn; unfold dim_supported; repeat split; try assumption; lia).
  split; [exact Sx|]. split; [exact Sy|]. split; [reflexivity|]. intros E. destruct (C30_task_ids_injective _ _ OK Sx Sy) as (a & b & Ha & Hb & I). rewrite Ha, Hb in E. injection E as E. specialize (I E). discriminate I.
Qed.

(** ** Output *)
Lemma append_inj_l a b b' : a +++ b = a +++ b' -> b = b'.
Proof. induction a as [|x a IH]; cbn; [auto|intros H; injection H as H; auto]. Qed.
Fixpoint no_space (s : string) : Prop := match s with EmptyString => True | String a s => a <> " "%char /\ no_space s end.
Lemma space_split a b s t : no_space a -> no_space b -> a +++ String " " s = b +++ String " " t -> a = b /\ s = t.
Proof.
  revert b. induction a as [|x a IH]; intros [|y b] Ha Hb H; cbn in *.
  - injection H as H. auto.
  - injection H as E H. destruct Hb as [Hb _]. congruence.
  - injection H as E H. destruct Ha as [Ha _]. congruence.
  - injection H as -> H. destruct (IH b (proj2 Ha) (proj2 Hb) H) as [-> ->]. auto.
Qed.
Lemma append_dot_inj a b : a +++ "." = b +++ "." -> a = b.
Proof.
  revert b. induction a as [|x a IH]; intros [|y b] H; cbn in *; [reflexivity| | |].
  - injection H as _ H. destruct b; discriminate H.
  - injection H as _ H. destruct a; discriminate H.
  - injection H as -> H. now rewrite (IH b H).
Qed.
Lemma decimal_inj a b : decimal a = decimal b -> a = b.
Proof.
  assert (R : forall z, option_map Z.of_int (NilZero.int_of_string (decimal z)) = Some z).
  { intros z. unfold decimal. rewrite NilZero.isi.
    - cbn [option_map]. now rewrite DecimalZ.of_to.
    - destruct z; cbn [Z.to_int]; try discriminate. intros E. injection E as E. now apply Unsigned.to_uint_nonnil in E.
    - destruct z; cbn [Z.to_int]; try discriminate. intros E. injection E as E. now apply Unsigned.to_uint_nonnil in E. }
  intros H. pose proof (R a) as Ha. rewrite H, R in Ha. congruence.
Qed.
Lemma no_space_app a b : no_space a -> no_space b -> no_space (a +++ b).
Proof. induction a as [|x a IH]; cbn; [auto|]. intros [H1 H2] Hb. auto. Qed.
Lemma no_space_decimal z : no_space (decimal z).
Proof.
  assert (U : forall d, no_space (NilEmpty.string_of_uint d)) by (induction d; cbn; auto; split; try assumption; discriminate).
  assert (V : forall d, no_space (NilZero.string_of_uint d)) by (intros d; destruct d; [cbn; split; [discriminate|exact I]|apply U ..]).
  unfold decimal. destruct (Z.to_int z) as [d|d]; cbn [NilZero.string_of_int]; [apply V|]. cbn. split; [discriminate|apply V].
Qed.
Lemma no_space_name x : no_space (task_name x).
Proof.
  assert (U : no_space "_") by (cbn; split; [discriminate|exact I]).
  assert (E : forall t, no_space (entry_name t)) by (intros []; cbn; repeat split; discriminate).
  assert (J : forall i, no_space (index_name i)) by (intros []; cbn; repeat split; discriminate).
  unfold task_name. apply no_space_app; [destruct (t_block x); cbn; repeat split; discriminate|].
  destruct (t_params x); repeat apply no_space_app; auto using no_space_decimal.
Qed.
(** The text of a registration message determines the name and the id in it. *)
Theorem C94_messages : forall name name' id id', no_space name -> no_space name' -> register_line name id = register_line name' id' -> name = name' /\ id = id'.
Proof.
  intros n n' i i' Hn Hn' H. unfold register_line in H. apply append_inj_l in H. change (" with ID " +++ decimal i +++ ".") with (String " " ("with ID " +++ decimal i +++ ".")) in H.
  change (" with ID " +++ decimal i' +++ ".") with (String " " ("with ID " +++ decimal i' +++ ".")) in H. destruct (@space_split _ _ _ _ Hn Hn' H) as [-> E].
  apply append_inj_l, append_dot_inj, decimal_inj in E. auto.
Qed.
Lemma prefix_app p s : String.prefix p (p +++ s) = true.
Proof. induction p as [|a p IH]; [destruct s; reflexivity|]. cbn. destruct (ascii_dec a a) as [_|N]; [exact IH|contradiction]. Qed.
Lemma register_ignored name id : ignored (register_line name id) = true.
Proof. unfold ignored, starts_with, register_line. change "[LegionSolvers] Registering task " with ("[LegionSolvers] Registering task" +++ " "). rewrite append_assoc, prefix_app. reflexivity. Qed.
Lemma filter_guard (f : string -> bool) x l : f l = true -> filter f (guard x [l]) = guard x [l].
Proof. intros H. unfold guard. destruct x; [|reflexivity]. cbn [filter]. now rewrite H. Qed.
(** What is printed: with print_info the description of the build, then with verbose one message for every variant registered, in order; nothing else.  The test script ignores
    the messages and not the description; the test and benchmark programs call initialize(false, false), which prints nothing. *)
Theorem C94_output : forall b print_info verbose acts, initialize b print_info verbose = Some acts ->
  printed acts = (if print_info then info_lines b else []) ++
    (if verbose then map (fun v : Z * string * proc * registrar => let '(id, name, _, _) := v in register_line name id) (variants acts) else []) /\
  filter (fun line => negb (ignored line)) (printed acts) = (if print_info then info_lines b else []) /\
  (print_info = false -> verbose = false -> printed acts = []) /\
  Forall (fun v : Z * string * proc * registrar => let '(_, name, _, _) := v in no_space name) (variants acts).
Proof.
  intros b pi v acts H. destruct (initialize_variants _ _ _ H) as [HV HP].
  assert (P : printed acts = (if pi then info_lines b else []) ++ (if v then map (fun v : Z * string * proc * registrar => let '(id, name, _, _) := v in register_line name id) (variants acts) else [])).
  { rewrite HP. unfold guard. f_equal. destruct v; [|reflexivity]. apply map_ext. intros [[[i n] k] f]. reflexivity. }
  split; [exact P|]. split; [|split].
  - rewrite P, filter_app.
    assert (F : filter (fun line => negb (ignored line)) (info_lines b) = info_lines b).
    { unfold info_lines. rewrite !filter_app, !(filter_guard (fun line => negb (ignored line))) by (vm_compute; reflexivity). f_equal. destruct (b_cuda b), (b_kokkos b); vm_compute; reflexivity. }
    assert (G : forall l, filter (fun line => negb (ignored line)) (map (fun v : Z * string * proc * registrar => let '(id, name, _, _) := v in register_line name id) l) = []).
    { induction l as [|[[[i n] k] f] l IH]; [reflexivity|]. cbn [map filter]. rewrite register_ignored. exact IH. }
    destruct pi, v; rewrite ?F, ?G; cbn [filter]; apply app_nil_r.
  - intros -> ->. exact P.
  - rewrite HV. apply Forall_forall. intros [[[i n] k] f] Hin. apply in_app_iff in Hin. destruct Hin as [Hin|Hin].
    + apply in_flat_map in Hin. destruct Hin as [x [_ Hin]]. apply in_map_iff in Hin. destruct Hin as [k' [E _]]. injection E as _ <- _ _. apply no_space_name.
    + unfold guard in Hin. destruct (own_gpu_code b); [|destruct Hin]. destruct Hin as [E|[]]. injection E as _ <- _ _. cbn. repeat split; discriminate.
Qed.
(** The description tells how the library was built: the CUDA and Kokkos lines, and the types and dimensions for which vector tasks are registered. *)
Definition entry_line (t : etype) : string := match t with F32 => "[LegionSolvers]   * 32-bit floating-point" | F64 => "[LegionSolvers]   * 64-bit floating-point" end.
Definition index_line (i : itype) : string :=
  match i with S32 => "[LegionSolvers]   * signed 32-bit integer" | U32 => "[LegionSolvers]   * unsigned 32-bit integer" | S64 => "[LegionSolvers]   * signed 64-bit integer" end.
Definition dim_line (n : Z) : string := "[LegionSolvers]   * " +++ decimal n.
Lemma in_lines s l : In s l <-> existsb (String.eqb s) l = true.
Proof. rewrite existsb_exists. split; [intros H; exists s; split; [exact H|apply String.eqb_refl]|]. intros [x [H E]]. apply String.eqb_eq in E. now subst. Qed.
Lemma existsb_guard s x l : existsb (String.eqb s) (guard x [l]) = x && String.eqb s l.
Proof. unfold guard. destruct x; cbn [existsb]; [now rewrite orb_false_r|reflexivity]. Qed.
Ltac closed_eqb := repeat match goal with |- context[String.eqb ?a ?b] => let v := eval vm_compute in (String.eqb a b) in change (String.eqb a b) with v end.
Lemma read_decimal z : option_map Z.of_int (NilZero.int_of_string (decimal z)) = Some z.
Proof.
  unfold decimal. rewrite NilZero.isi.
  - cbn [option_map]. now rewrite DecimalZ.of_to.
  - destruct z; cbn [Z.to_int]; try discriminate. intros E. injection E as E. now apply Unsigned.to_uint_nonnil in E.
  - destruct z; cbn [Z.to_int]; try discriminate. intros E. injection E as E. now apply Unsigned.to_uint_nonnil in E.
Qed.
Definition listed_dim (line : string) : Prop :=
  match strip "[LegionSolvers]   * " line with Some w => match option_map Z.of_int (NilZero.int_of_string w) with Some d => 1 <= d <= 3 | None => True end | None => True end.
Lemma listed_dims b : Forall listed_dim (info_lines b).
Proof.
  assert (G : forall x l, listed_dim l -> Forall listed_dim (guard x [l])) by (intros x l H; unfold guard; destruct x; repeat constructor; exact H).
  assert (A : forall l, (match strip "[LegionSolvers]   * " l with Some w => match option_map Z.of_int (NilZero.int_of_string w) with Some d => (1 <=? d) && (d <=? 3) | None => true end | None => true end) = true -> listed_dim l).
  { intros l H. unfold listed_dim. destruct (strip _ l) as [w|]; [|exact I]. destruct (option_map _ _) as [d|]; [|exact I]. apply andb_true_iff in H. rewrite !Z.leb_le in H. exact H. }
  unfold info_lines. destruct (b_cuda b), (b_kokkos b); repeat (apply Forall_app; split); try apply G; repeat (apply Forall_cons; [apply A; vm_compute; reflexivity|]); try apply Forall_nil; apply A; vm_compute; reflexivity.
Qed.
Theorem C94_description : forall b,
  (In "[LegionSolvers] CUDA support enabled." (info_lines b) <-> b_cuda b = true) /\ (In "[LegionSolvers] CUDA support disabled." (info_lines b) <-> b_cuda b = false) /\
  (In "[LegionSolvers] Kokkos support enabled." (info_lines b) <-> b_kokkos b = true) /\ (In "[LegionSolvers] Kokkos support disabled." (info_lines b) <-> b_kokkos b = false) /\
  forall t n i, In (mk_task AXPY (PTDI t n i)) (registered (b_config b)) <-> In (entry_line t) (info_lines b) /\ In (dim_line n) (info_lines b) /\ In (index_line i) (info_lines b).
Proof.
  intros b. split; [|split; [|split; [|split]]].
  1-4: rewrite in_lines; unfold info_lines; rewrite !existsb_app, !existsb_guard; destruct (b_cuda b), (b_kokkos b); cbn [existsb]; closed_eqb; rewrite ?andb_false_r; cbn [orb andb]; split; (reflexivity || discriminate || (intros; reflexivity)).
  intros t n i.
  assert (R : In (mk_task AXPY (PTDI t n i)) (registered (b_config b)) <-> entry_enabled (b_config b) t /\ (1 <= n <= max_dim (b_config b) /\ n <= 3) /\ index_enabled (b_config b) i).
  { rewrite <- in_etypes, <- in_dims, <- in_itypes. unfold registered. rewrite !in_app_iff, in_registered_tdi. split.
    - intros [Q|[Q|[Q|Q]]].
      + unfold registered_scalar in Q. apply in_flat_map in Q. destruct Q as [u [_ Q]]. apply in_map_iff in Q. destruct Q as [bb [E _]]. discriminate E.
      + unfold registered_print_index in Q. apply in_flat_map in Q. destruct Q as [u [_ Q]]. apply in_map_iff in Q. destruct Q as [bb [E _]]. discriminate E.
      + destruct Q as (bb & u & m & j & E & _ & A & B & C). injection E as <- <- <- <-. auto.
      + unfold registered_matrix in Q. cbn in Q. repeat destruct Q as [E|Q]; try discriminate E. contradiction.
    - intros (A & B & C). right. right. left. exists AXPY, t, n, i. cbn. tauto. }
  rewrite R.
  assert (E : In (entry_line t) (info_lines b) <-> entry_enabled (b_config b) t).
  { rewrite in_lines; unfold info_lines, entry_enabled; rewrite !existsb_app, !existsb_guard. destruct t, (b_cuda b), (b_kokkos b); cbn [existsb entry_line]; closed_eqb;
      rewrite ?andb_false_r, ?andb_true_r, ?orb_false_r; cbn [orb andb]; reflexivity. }
  assert (J : In (index_line i) (info_lines b) <-> index_enabled (b_config b) i).
  { rewrite in_lines; unfold info_lines, index_enabled; rewrite !existsb_app, !existsb_guard. destruct i, (b_cuda b), (b_kokkos b); cbn [existsb index_line]; closed_eqb;
      rewrite ?andb_false_r, ?andb_true_r, ?orb_false_r; cbn [orb andb]; reflexivity. }
  assert (N : In (dim_line n) (info_lines b) <-> (1 <= n <= max_dim (b_config b) /\ n <= 3)).
  { assert (K : forall m, 1 <= m <= 3 -> (In (dim_line m) (info_lines b) <-> m <= max_dim (b_config b))).
    { intros m Hm. rewrite <- Z.leb_le, in_lines. unfold info_lines. rewrite !existsb_app, !existsb_guard. assert (C : m = 1 \/ m = 2 \/ m = 3) by lia.
      destruct C as [->|[->| ->]], (b_cuda b), (b_kokkos b); cbn [existsb]; closed_eqb; rewrite ?andb_false_r, ?andb_true_r, ?orb_false_r; cbn [orb andb]; reflexivity. }
    split.
    - intros Q. assert (C : 1 <= n <= 3); [|rewrite K in Q by exact C; lia]. pose proof (listed_dims b) as F. rewrite Forall_forall in F. specialize (F _ Q). unfold listed_dim, dim_line in F.
      rewrite strip_app, read_decimal in F. exact F.
    - intros [A B]. apply K; lia. }
  rewrite E, N, J. tauto.
Qed.

(** Non-vacuity: the shipped configuration compiles, with CUDA and without, and names are as in Legion's profiles. *)
Example C94_example :
  config_ok default_config /\ matrix_types default_config /\ length (preregister_calls default_config) = 215%nat /\
  task_name (mk_task COO_MATVEC (PTDDDIII F64 1 2 2 S64 S32 U32)) = "coo_matvec_double_122_longlong_int_unsigned" /\
  exists acts, initialize (mk_build default_config true false) false true = Some acts /\ length (variants acts) = 296%nat /\
    In "[LegionSolvers] Registering task axpy_double_2_int with ID 562213." (printed acts).
Proof.
  split; [exact default_config_ok|]. split; [repeat split|]. split; [vm_compute; reflexivity|]. split; [vm_compute; reflexivity|].
  assert (K : match initialize (mk_build default_config true false) false true with
    | Some a => Nat.eqb (length (variants a)) 296 && existsb (String.eqb "[LegionSolvers] Registering task axpy_double_2_int with ID 562213.") (printed a) | None => false end = true) by (vm_compute; reflexivity).
  destruct (initialize (mk_build default_config true false) false true) as [acts|]; [|discriminate K]. exists acts. split; [reflexivity|]. apply andb_true_iff in K. destruct K as [K1 K2].
  apply Nat.eqb_eq in K1. split; [exact K1|]. apply existsb_exists in K2. destruct K2 as [l [Hl E]]. apply String.eqb_eq in E. now subst.
Qed.
