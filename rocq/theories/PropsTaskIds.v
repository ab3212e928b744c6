(** PropsTaskIds: C30, C31, C32, C55 - task numbering, lookup and registration. *)
From Verif Require Import Base TaskIds.
Local Open Scope Z_scope.
Set Implicit Arguments.

(** ------------------------------------------------------------------ specification *)
(** A supported type in a configuration. *)
Definition entry_enabled (c : config) (t : etype) : Prop := match t with F32 => use_f32 c | F64 => use_f64 c end = true.
Definition index_enabled (c : config) (i : itype) : Prop :=
  match i with S32 => use_s32 c | U32 => use_u32 c | S64 => use_s64 c end = true.
Definition dim_supported (c : config) (n : Z) : Prop := 1 <= n <= max_dim c.

(** A task class instantiated with supported arguments of the right shape. *)
Definition supported (c : config) (x : task) : Prop :=
  match block_shape (t_block x), t_params x with
  | ShapeT, PT t => entry_enabled c t
  | ShapeDI, PDI n i => dim_supported c n /\ index_enabled c i
  | ShapeTDI, PTDI t n i => entry_enabled c t /\ dim_supported c n /\ index_enabled c i
  | ShapeTDDDIII, PTDDDIII t n1 n2 n3 i1 i2 i3 =>
      entry_enabled c t /\ dim_supported c n1 /\ dim_supported c n2 /\ dim_supported c n3 /\
      index_enabled c i1 /\ index_enabled c i2 /\ index_enabled c i3
  | _, _ => False
  end.

(** A configuration whose 28 blocks of ids fit in Legion's 32-bit task ids. *)
Definition config_ok (c : config) : Prop :=
  1 <= max_dim c /\ 0 <= id_origin c /\ id_origin c + 1 + 28 * block_size c < 2 ^ 32.

(** ------------------------------------------------------------------ facts *)
Lemma list_index_range A eqb (l : list (option A)) x k : list_index eqb l x = Some k -> 0 <= k < Z.of_nat (length l).
Proof.
  revert k. induction l as [|[y|] l IH]; intros k H; cbn [list_index] in H; [discriminate| |].
  - destruct (eqb x y); [injection H as <-; cbn [length]; lia|].
    destruct (list_index eqb l x) as [j|] eqn:E; [|discriminate]. assert (k = 1 + j) by (cbn [option_map] in H; congruence). subst k.
    specialize (IH j eq_refl). cbn [length]. lia.
  - destruct (list_index eqb l x) as [j|] eqn:E; [|discriminate]. assert (k = 1 + j) by (cbn [option_map] in H; congruence). subst k.
    specialize (IH j eq_refl). cbn [length]. lia.
Qed.

Lemma list_index_inj A eqb (l : list (option A)) x y k : (forall a b, eqb a b = true <-> a = b) ->
  list_index eqb l x = Some k -> list_index eqb l y = Some k -> x = y.
Proof.
  intros He. revert k. induction l as [|[z|] l IH]; intros k H1 H2; cbn [list_index] in *; [discriminate| |].
  - destruct (eqb x z) eqn:E1; destruct (eqb y z) eqn:E2.
    + apply He in E1. apply He in E2. congruence.
    + injection H1 as <-. destruct (list_index eqb l y) as [j|] eqn:E; [|discriminate]. assert (0 = 1 + j) by (cbn [option_map] in H2; congruence).
      apply list_index_range in E. lia.
    + injection H2 as <-. destruct (list_index eqb l x) as [j|] eqn:E; [|discriminate]. assert (0 = 1 + j) by (cbn [option_map] in H1; congruence).
      apply list_index_range in E. lia.
    + destruct (list_index eqb l x) as [j|] eqn:Ex; [|discriminate]. destruct (list_index eqb l y) as [j'|] eqn:Ey; [|discriminate].
      assert (k = 1 + j) by (cbn [option_map] in H1; congruence). assert (k = 1 + j') by (cbn [option_map] in H2; congruence).
    assert (j' = j) by lia. subst j'. apply (IH j); reflexivity.
  - destruct (list_index eqb l x) as [j|] eqn:Ex; [|discriminate]. destruct (list_index eqb l y) as [j'|] eqn:Ey; [|discriminate].
    assert (k = 1 + j) by (cbn [option_map] in H1; congruence). assert (k = 1 + j') by (cbn [option_map] in H2; congruence).
    assert (j' = j) by lia. subst j'. apply (IH j); reflexivity.
Qed.

Lemma itype_eqb_iff a b : itype_eqb a b = true <-> a = b.
Proof. destruct a, b; cbn; split; congruence. Qed.
Lemma etype_eqb_iff a b : etype_eqb a b = true <-> a = b.
Proof. destruct a, b; cbn; split; congruence. Qed.

Lemma entry_index_some c t : entry_enabled c t -> exists k, entry_type_index c t = Some k /\ 0 <= k < num_entry c.
Proof.
  intros H. assert (E: exists k, entry_type_index c t = Some k).
  { unfold entry_enabled in H. unfold entry_type_index, entry_types.
    destruct t; rewrite H; cbn; [eauto|]. destruct (use_f32 c); cbn; eauto. }
  destruct E as [k E]. exists k. split; [exact E|]. exact (@list_index_range _ _ _ _ _ E).
Qed.
(** the position of an enabled index type is Legion's own code for it, whatever else is disabled *)
Lemma index_index_some c i : index_enabled c i ->
  index_type_index c i = Some (legion_type_code i) /\ 0 <= legion_type_code i < num_index c.
Proof.
  intros H. unfold index_enabled in H. unfold index_type_index, index_types, num_index.
  split; [|destruct i; cbn; lia].
  destruct i; rewrite H; destruct (use_s32 c), (use_u32 c), (use_s64 c); reflexivity.
Qed.
Lemma legion_type_code_inj i j : legion_type_code i = legion_type_code j -> i = j.
Proof. destruct i, j; cbn; congruence. Qed.
Lemma entry_index_inj c t t' k : entry_type_index c t = Some k -> entry_type_index c t' = Some k -> t = t'.
Proof. apply list_index_inj, etype_eqb_iff. Qed.

Lemma block_id_range b : 0 <= block_id b < 28.
Proof. destruct b; cbn; lia. Qed.
Lemma block_id_inj b b' : block_id b = block_id b' -> b = b'.
Proof. destruct b, b'; cbn; intros H; try reflexivity; discriminate H. Qed.

Lemma num_entry_pos c : 1 <= num_entry c.
Proof. unfold num_entry, entry_types. rewrite !app_length. cbn [length]. lia. Qed.
Lemma num_index_4 c : num_index c = 4.
Proof. reflexivity. Qed.

(** one digit of a mixed-radix number *)
Lemma radix R a b a' b' : 0 <= a < R -> 0 <= a' < R -> R * b + a = R * b' + a' -> a = a' /\ b = b'.
Proof. intros H1 H2 H. assert (b = b') by nia. subst. lia. Qed.
Lemma radix_lt R a b B : 0 <= a < R -> 0 <= b < B -> 0 <= R * b + a < R * B.
Proof. nia. Qed.

(** the offset of a supported instance within its block *)
Definition offset (c : config) (x : task) : Z :=
  match t_params x with
  | PT t => match entry_type_index c t with Some ti => ti | None => 0 end
  | PDI n i => max_dim c * legion_type_code i + (n - 1)
  | PTDI t n i => num_entry c * (max_dim c * legion_type_code i + (n - 1))
                  + match entry_type_index c t with Some ti => ti | None => 0 end
  | PTDDDIII t n1 n2 n3 i1 i2 i3 =>
      num_entry c * (num_index c * (num_index c * (num_index c *
        (max_dim c * (max_dim c * (n1 - 1) + (n2 - 1)) + (n3 - 1))
        + legion_type_code i1) + legion_type_code i2) + legion_type_code i3)
      + match entry_type_index c t with Some ti => ti | None => 0 end
  end.

Lemma block_size_eq c : block_size c = num_entry c * (4 * (4 * (4 * (max_dim c * (max_dim c * max_dim c))))).
Proof. unfold block_size, max_dim_3, max_dim_2, max_dim_1, max_dim_0, num_index_3, num_index_2, num_index_1, num_index_0. rewrite num_index_4. ring. Qed.

Lemma offset_range c x : config_ok c -> supported c x -> 0 <= offset c x < block_size c.
Proof.
  intros (HD & _ & _) Hs. pose proof (num_entry_pos c) as HE. rewrite block_size_eq.
  assert (HP: max_dim c * max_dim c <= max_dim c * (max_dim c * max_dim c)) by nia.
  assert (HQ: max_dim c <= max_dim c * max_dim c) by nia.
  set (P := max_dim c * (max_dim c * max_dim c)) in *.
  unfold supported in Hs. unfold offset.
  destruct (block_shape (t_block x)), (t_params x) as [t|n i|t n i|t n1 n2 n3 i1 i2 i3]; try contradiction.
  - destruct (entry_index_some Hs) as [k [-> Hk]]. split; [lia|]. assert (num_entry c * 1 <= num_entry c * (4 * (4 * (4 * P)))) by (apply Z.mul_le_mono_nonneg_l; lia). lia.
  - destruct Hs as [Hn Hi]. destruct (index_index_some Hi) as [_ Hi']. rewrite num_index_4 in Hi'. unfold dim_supported in Hn.
    pose proof (@radix_lt (max_dim c) (n - 1) (legion_type_code i) 4 ltac:(lia) ltac:(lia)).
    split; [lia|]. assert (1 * (4 * (4 * (4 * P))) <= num_entry c * (4 * (4 * (4 * P)))) by (apply Z.mul_le_mono_nonneg_r; lia). lia.
  - destruct Hs as (Ht & Hn & Hi). destruct (index_index_some Hi) as [_ Hi']. rewrite num_index_4 in Hi'. unfold dim_supported in Hn.
    destruct (entry_index_some Ht) as [k [-> Hk]].
    pose proof (@radix_lt (max_dim c) (n - 1) (legion_type_code i) 4 ltac:(lia) ltac:(lia)) as H1.
    pose proof (@radix_lt (num_entry c) k _ _ Hk H1). split; [lia|].
    assert (num_entry c * (max_dim c * 4) <= num_entry c * (4 * (4 * (4 * P)))) by (apply Z.mul_le_mono_nonneg_l; lia). lia.
  - destruct Hs as (Ht & Hn1 & Hn2 & Hn3 & Hi1 & Hi2 & Hi3).
    destruct (index_index_some Hi1) as [_ H1]. destruct (index_index_some Hi2) as [_ H2]. destruct (index_index_some Hi3) as [_ H3].
    destruct (entry_index_some Ht) as [k [-> Hk]]. unfold dim_supported in *. rewrite num_index_4 in *. subst P.
    assert (A1: 0 <= max_dim c * (n1 - 1) + (n2 - 1) < max_dim c * max_dim c) by (apply radix_lt; lia).
    assert (A2: 0 <= max_dim c * (max_dim c * (n1 - 1) + (n2 - 1)) + (n3 - 1) < max_dim c * (max_dim c * max_dim c))
      by (apply radix_lt; lia).
    assert (A3: 0 <= 4 * (max_dim c * (max_dim c * (n1 - 1) + (n2 - 1)) + (n3 - 1)) + legion_type_code i1
                < 4 * (max_dim c * (max_dim c * max_dim c))) by (apply radix_lt; lia).
    assert (A4: 0 <= 4 * (4 * (max_dim c * (max_dim c * (n1 - 1) + (n2 - 1)) + (n3 - 1)) + legion_type_code i1)
                + legion_type_code i2 < 4 * (4 * (max_dim c * (max_dim c * max_dim c)))) by (apply radix_lt; lia).
    assert (A5: 0 <= 4 * (4 * (4 * (max_dim c * (max_dim c * (n1 - 1) + (n2 - 1)) + (n3 - 1)) + legion_type_code i1)
                + legion_type_code i2) + legion_type_code i3 < 4 * (4 * (4 * (max_dim c * (max_dim c * max_dim c)))))
      by (apply radix_lt; lia).
    apply radix_lt; lia.
Qed.

Arguments offset_range {c x} _ _.

Lemma origin_small c b k : config_ok c -> 0 <= k < block_size c -> u32 (block_origin c b + k) = block_origin c b + k.
Proof.
  intros (HD & HO & HF) Hk. unfold u32. apply Z.mod_small. unfold block_origin, NUM_META_TASK_IDS.
  pose proof (block_id_range b). nia.
Qed.

Lemma task_id_eq c x : config_ok c -> supported c x -> task_id c x = Some (block_origin c (t_block x) + offset c x).
Proof.
  intros Hc Hs. pose proof (offset_range Hc Hs) as Ho.
  rewrite <- (@origin_small c (t_block x) _ Hc Ho). unfold task_id.
  unfold offset, supported in *. destruct (t_params x) as [t|n i|t n i|t n1 n2 n3 i1 i2 i3];
    destruct (block_shape (t_block x)); try contradiction.
  - destruct (entry_index_some Hs) as [k [-> Hk]]. reflexivity.
  - destruct Hs as [Hn Hi]. destruct (index_index_some Hi) as [-> _]. f_equal. f_equal. ring.
  - destruct Hs as (Ht & Hn & Hi). destruct (index_index_some Hi) as [-> _]. destruct (entry_index_some Ht) as [k [-> _]].
    f_equal. f_equal. ring.
  - destruct Hs as (Ht & Hn1 & Hn2 & Hn3 & Hi1 & Hi2 & Hi3).
    destruct (index_index_some Hi1) as [-> _]. destruct (index_index_some Hi2) as [-> _].
    destruct (index_index_some Hi3) as [-> _]. destruct (entry_index_some Ht) as [k [-> _]].
    f_equal. f_equal. unfold max_dim_2, max_dim_1, max_dim_0, num_index_3, num_index_2, num_index_1, num_index_0. ring.
Qed.

Arguments task_id_eq {c x} _ _.

Lemma offset_inj c b p p' : config_ok c -> supported c (mk_task b p) -> supported c (mk_task b p') ->
  offset c (mk_task b p) = offset c (mk_task b p') -> p = p'.
Proof.
  intros (HD & _ & _) H1 H2 E. pose proof (num_entry_pos c) as HE. unfold supported, offset in *. cbn [t_block t_params] in *.
  destruct (block_shape b), p as [t|n i|t n i|t n1 n2 n3 i1 i2 i3]; try contradiction;
    destruct p' as [t'|n' i'|t' n' i'|t' m1 m2 m3 k1 k2 k3]; try contradiction.
  - destruct (entry_index_some H1) as [k [E1 _]]. destruct (entry_index_some H2) as [k' [E2 _]].
    rewrite E1, E2 in E. subst k'. f_equal. exact (entry_index_inj _ _ _ E1 E2).
  - destruct H1 as [Hn Hi], H2 as [Hn' Hi']. unfold dim_supported in *.
    apply radix in E; [|lia|lia]. destruct E as [E1 E2]. apply legion_type_code_inj in E2. subst. f_equal. lia.
  - destruct H1 as (Ht & Hn & Hi), H2 as (Ht' & Hn' & Hi'). unfold dim_supported in *.
    destruct (entry_index_some Ht) as [k [E1 Hk]]. destruct (entry_index_some Ht') as [k' [E2 Hk']].
    rewrite E1, E2 in E. apply radix in E; [|lia|lia]. destruct E as [E3 E]. subst k'.
    apply radix in E; [|lia|lia]. destruct E as [E4 E5]. apply legion_type_code_inj in E5.
    pose proof (entry_index_inj _ _ _ E1 E2). subst. f_equal. lia.
  - destruct H1 as (Ht & Hn1 & Hn2 & Hn3 & Hi1 & Hi2 & Hi3), H2 as (Ht' & Hm1 & Hm2 & Hm3 & Hk1 & Hk2 & Hk3).
    unfold dim_supported in *.
    destruct (entry_index_some Ht) as [k [E1 Hk]]. destruct (entry_index_some Ht') as [k' [E2 Hk']].
    rewrite E1, E2 in E.
    pose proof (proj2 (index_index_some Hi1)). pose proof (proj2 (index_index_some Hi2)). pose proof (proj2 (index_index_some Hi3)).
    pose proof (proj2 (index_index_some Hk1)). pose proof (proj2 (index_index_some Hk2)). pose proof (proj2 (index_index_some Hk3)).
    apply radix in E; [|lia|lia]. destruct E as [E3 E]. subst k'.
    apply radix in E; [|lia|lia]. destruct E as [F3 E]. apply radix in E; [|lia|lia]. destruct E as [F2 E].
    apply radix in E; [|lia|lia]. destruct E as [F1 E]. apply radix in E; [|lia|lia]. destruct E as [G3 E].
    apply radix in E; [|lia|lia]. destruct E as [G2 G1].
    apply legion_type_code_inj in F1, F2, F3. pose proof (entry_index_inj _ _ _ E1 E2). subst.
    replace m1 with n1 by lia. replace m2 with n2 by lia. replace m3 with n3 by lia. reflexivity.
Qed.

Arguments offset_inj {c b p p'} _ _ _ _.

(** ------------------------------------------------------------------ C30 *)
(** Every supported task instance has an id, and two instances with the same id are the same instance. *)
Theorem C30_task_ids_injective : forall c x y, config_ok c -> supported c x -> supported c y ->
  exists i j, task_id c x = Some i /\ task_id c y = Some j /\ (i = j -> x = y).
Proof.
  intros c x y Hc Hx Hy. rewrite (task_id_eq Hc Hx), (task_id_eq Hc Hy). do 2 eexists. split; [reflexivity|].
  split; [reflexivity|]. intros E. pose proof (offset_range Hc Hx). pose proof (offset_range Hc Hy).
  unfold block_origin in E. destruct x as [b p], y as [b' p']. cbn [t_block] in E.
  assert (E': block_size c * block_id b + offset c (mk_task b p) = block_size c * block_id b' + offset c (mk_task b' p')) by lia.
  apply radix in E'; [|assumption|assumption]. destruct E' as [E1 E2]. apply block_id_inj in E2. subst b'.
  f_equal. exact (offset_inj Hc Hx Hy E1).
Qed.

(** The mapper's block test recognises exactly the instances of its kind, and no id is the meta task's. *)
Theorem C30_task_ids_in_their_block : forall c x, config_ok c -> supported c x ->
  exists i, task_id c x = Some i /\ 0 <= i < 2 ^ 32 /\ i <> load_cuda_libs_id c /\
            forall b, is_task c i b = true <-> b = t_block x.
Proof.
  intros c x Hc Hx. pose proof (offset_range Hc Hx) as Ho. pose proof (task_id_eq Hc Hx) as E.
  eexists. split; [exact E|]. pose proof Hc as (HD & HO & HF).
  pose proof (block_id_range (t_block x)) as Hb.
  assert (HL: load_cuda_libs_id c = id_origin c).
  { unfold load_cuda_libs_id, u32, LOAD_CUDA_LIBS. rewrite Z.add_0_r. apply Z.mod_small. nia. }
  split; [unfold block_origin, NUM_META_TASK_IDS; nia|]. split; [rewrite HL; unfold block_origin, NUM_META_TASK_IDS; nia|].
  intros b. unfold is_task. pose proof (block_id_range b) as Hb'.
  assert (HB: 0 < block_size c) by lia.
  assert (E0: u32 (block_origin c b) = block_origin c b).
  { rewrite <- (Z.add_0_r (block_origin c b)) at 1. rewrite origin_small; [apply Z.add_0_r|exact Hc|lia]. }
  rewrite E0.
  assert (E1: u32 (block_origin c b + block_size c) = block_origin c b + block_size c).
  { unfold u32. apply Z.mod_small. unfold block_origin, NUM_META_TASK_IDS. nia. }
  rewrite E1, andb_true_iff, Z.leb_le, Z.ltb_lt. unfold block_origin, NUM_META_TASK_IDS. split.
  - intros [H1 H2]. apply block_id_inj. nia.
  - intros ->. lia.
Qed.

(** ------------------------------------------------------------------ C31 *)
(** Looking a task up by the dimension and type tag of a supported index space gives the id of the instance
    for that dimension and coordinate type - also when some index or entry types are compiled out. *)
Theorem C31_runtime_id_is_compile_time_id : forall c, config_ok c ->
  (forall b n i, index_enabled c i ->
     task_id c (mk_task b (PDI n i)) = Some (task_id_rt_di c b (mk_ispace n i))) /\
  (forall b t n i, index_enabled c i -> entry_enabled c t ->
     task_id_rt_tdi c b t (mk_ispace n i) = task_id c (mk_task b (PTDI t n i)) /\
     task_id_rt_tdi c b t (mk_ispace n i) <> None) /\
  (forall b t n1 n2 n3 i1 i2 i3, index_enabled c i1 -> index_enabled c i2 -> index_enabled c i3 -> entry_enabled c t ->
     task_id_rt_tdddiii c b t (mk_ispace n1 i1) (mk_ispace n2 i2) (mk_ispace n3 i3) =
       task_id c (mk_task b (PTDDDIII t n1 n2 n3 i1 i2 i3)) /\
     task_id_rt_tdddiii c b t (mk_ispace n1 i1) (mk_ispace n2 i2) (mk_ispace n3 i3) <> None).
Proof.
  intros c Hc.
  assert (T: forall n i, type_tag (mk_ispace n i) - 256 * n = legion_type_code i) by (intros; unfold type_tag; cbn; lia).
  repeat split; intros.
  - unfold task_id, task_id_rt_di. cbn [t_params t_block sp_dim sp_type]. rewrite T.
    destruct (index_index_some H) as [-> _]. reflexivity.
  - unfold task_id, task_id_rt_tdi. cbn [t_params t_block sp_dim sp_type]. rewrite T.
    destruct (index_index_some H) as [-> _]. destruct (entry_index_some H0) as [k [-> _]]. reflexivity.
  - unfold task_id_rt_tdi. destruct (entry_index_some H0) as [k [-> _]]. discriminate.
  - unfold task_id, task_id_rt_tdddiii. cbn [t_params t_block sp_dim sp_type]. rewrite !T.
    destruct (index_index_some H) as [-> _]. destruct (index_index_some H0) as [-> _]. destruct (index_index_some H1) as [-> _].
    destruct (entry_index_some H2) as [k [-> _]]. reflexivity.
  - unfold task_id_rt_tdddiii. destruct (entry_index_some H2) as [k [-> _]]. discriminate.
Qed.

(** ------------------------------------------------------------------ C32 *)
(** [id] was registered at initialisation, for some task class instance. *)
Definition registered_id (c : config) (id : Z) : Prop := exists x, In x (registered c) /\ task_id c x = Some id.

Lemma in_guard A b (l : list A) x : In x (guard b l) <-> b = true /\ In x l.
Proof. destruct b; cbn; intuition discriminate. Qed.
Lemma in_dims c n : In n (dims_registered c) <-> 1 <= n <= max_dim c /\ n <= 3.
Proof.
  unfold dims_registered. rewrite !in_app_iff, !in_guard, !Z.leb_le. cbn [In].
  split; [intuition lia|]. intros H. assert (n = 1 \/ n = 2 \/ n = 3) as [-> | [-> | ->]] by lia; intuition lia.
Qed.
Lemma in_itypes c i : In i (itypes_registered c) <-> index_enabled c i.
Proof.
  unfold itypes_registered, index_enabled. rewrite !in_app_iff, !in_guard. cbn [In].
  destruct i; intuition congruence.
Qed.
Lemma in_etypes c t : In t (etypes_registered c) <-> entry_enabled c t.
Proof.
  unfold etypes_registered, entry_enabled. rewrite !in_app_iff, !in_guard. cbn [In].
  destruct t; intuition congruence.
Qed.

Lemma registered_shape c b p : In (mk_task b p) (registered c) -> block_shape b = params_shape p.
Proof.
  unfold registered, registered_scalar, registered_print_index, registered_tdi, registered_matrix. rewrite !in_app_iff, !in_flat_map.
  intros [H|[H|[H|H]]].
  - destruct H as [t [_ H]]. apply in_map_iff in H. destruct H as [b' [E H]]. injection E as <- <-.
    cbn [In] in H. decompose [or] H; subst; try contradiction; reflexivity.
  - destruct H as [i [_ H]]. apply in_map_iff in H. destruct H as [n [E H]]. injection E as <- <-. reflexivity.
  - destruct H as [b' [Hb H]]. apply in_flat_map in H. destruct H as [t [_ H]]. apply in_flat_map in H.
    destruct H as [i [_ H]]. apply in_map_iff in H. destruct H as [n [E _]]. injection E as <- <-.
    cbn [In] in Hb. decompose [or] Hb; subst; try contradiction; reflexivity.
  - destruct H as [t [_ H]]. cbn [In kdr] in H. unfold kdr in H.
    decompose [or] H; try contradiction; match goal with E : mk_task _ _ = _ |- _ => injection E as <- <- end; reflexivity.
Qed.

(** the kernel-space instances that are registered *)
Lemma registered_tdddiii c b t n1 n2 n3 i1 i2 i3 : In (mk_task b (PTDDDIII t n1 n2 n3 i1 i2 i3)) (registered c) <->
  i1 = S64 /\ i2 = S64 /\ i3 = S64 /\ n1 = 1 /\ n2 = n3 /\
  ((n3 = 1 /\ block_shape b = ShapeTDDDIII) \/ ((n3 = 2 \/ n3 = 3) /\ (b = COO_PRINT \/ b = CSR_PRINT))).
Proof.
  split.
  - unfold registered, registered_scalar, registered_print_index, registered_tdi, registered_matrix. rewrite !in_app_iff, !in_flat_map.
    intros [H|[H|[H|H]]].
    + destruct H as [t' [_ H]]. apply in_map_iff in H. destruct H as [b' [E H]]. discriminate E.
    + destruct H as [i [_ H]]. apply in_map_iff in H. destruct H as [n [E H]]. discriminate E.
    + destruct H as [b' [Hb H]]. apply in_flat_map in H. destruct H as [t' [_ H]]. apply in_flat_map in H.
      destruct H as [i [_ H]]. apply in_map_iff in H. destruct H as [n [E _]]. discriminate E.
    + destruct H as [t' [_ H]]. cbn [In] in H. unfold kdr in H.
      decompose [or] H; try contradiction; match goal with E : mk_task _ _ = _ |- _ => injection E as <- <- <- <- <- <- <- <- end;
        cbn; intuition.
  - intros (-> & -> & -> & -> & -> & H). unfold registered. rewrite !in_app_iff. right. right. right.
    unfold registered_matrix. apply in_flat_map. exists t. split; [destruct t; cbn; auto|].
    destruct H as [[-> Hb]|[Hn Hb]].
    + destruct b; try discriminate Hb; cbn [In]; unfold kdr; auto 20.
    + destruct Hn as [-> | ->]; destruct Hb as [-> | ->]; cbn [In]; unfold kdr; auto 20.
Qed.

Lemma registered_id_iff c x i : config_ok c -> 3 <= max_dim c -> use_f32 c = true -> use_f64 c = true -> use_s64 c = true ->
  supported c x -> task_id c x = Some i -> (registered_id c i <-> In x (registered c)).
Proof.
  intros Hc H3 Hf Hd Hs Hx Ei. split.
  - intros [y [Hy Ey]]. assert (Sy: supported c y).
    { destruct y as [b p]. pose proof (registered_shape _ _ _ Hy) as Hsh. unfold supported. cbn [t_block t_params]. rewrite Hsh.
      destruct p as [t|n k|t n k|t n1 n2 n3 i1 i2 i3]; cbn [params_shape].
      - destruct t; assumption.
      - unfold registered, registered_scalar, registered_print_index, registered_tdi, registered_matrix in Hy.
        rewrite !in_app_iff, !in_flat_map in Hy. destruct Hy as [H|[H|[H|H]]].
        + destruct H as [t' [_ H]]. apply in_map_iff in H. destruct H as [b' [E H]]. discriminate E.
        + destruct H as [j [Hj H]]. apply in_map_iff in H. destruct H as [m [E Hm]]. injection E as <- <- <-.
          apply in_itypes in Hj. apply in_dims in Hm. unfold dim_supported. split; [lia|exact Hj].
        + destruct H as [b' [Hb H]]. apply in_flat_map in H. destruct H as [t' [_ H]]. apply in_flat_map in H.
          destruct H as [j [_ H]]. apply in_map_iff in H. destruct H as [m [E _]]. discriminate E.
        + destruct H as [t' [_ H]]. cbn [In] in H. unfold kdr in H. decompose [or] H; try contradiction; discriminate.
      - unfold registered, registered_scalar, registered_print_index, registered_tdi, registered_matrix in Hy.
        rewrite !in_app_iff, !in_flat_map in Hy. destruct Hy as [H|[H|[H|H]]].
        + destruct H as [t' [_ H]]. apply in_map_iff in H. destruct H as [b' [E H]]. discriminate E.
        + destruct H as [j [Hj H]]. apply in_map_iff in H. destruct H as [m [E Hm]]. discriminate E.
        + destruct H as [b' [Hb H]]. apply in_flat_map in H. destruct H as [t' [Ht H]]. apply in_flat_map in H.
          destruct H as [j [Hj H]]. apply in_map_iff in H. destruct H as [m [E Hm]]. injection E as <- <- <- <-.
          apply in_itypes in Hj. apply in_dims in Hm. apply in_etypes in Ht. unfold dim_supported.
          split; [exact Ht|split; [lia|exact Hj]].
        + destruct H as [t' [_ H]]. cbn [In] in H. unfold kdr in H. decompose [or] H; try contradiction; discriminate.
      - apply registered_tdddiii in Hy. destruct Hy as (-> & -> & -> & -> & -> & Hn). unfold dim_supported.
        assert (1 <= n3 <= 3) by (destruct Hn as [[-> _]|[[-> | ->] _]]; lia).
        repeat split; try lia; try assumption. destruct t; assumption. }
    destruct (@C30_task_ids_injective c x y Hc Hx Sy) as (i' & j' & E1 & E2 & Hinj).
    rewrite E1 in Ei. rewrite E2 in Ey. injection Ei as ->. injection Ey as ->. rewrite (Hinj eq_refl). exact Hy.
  - intros Hx'. exists x. auto.
Qed.

(** In every configuration with all types compiled in that the pinned registration list requires
    (float, double, 64-bit indices; at least three dimensions):
    - every scalar operation and every vector operation (also random fill and the stencil fills) on a space of
      dimension at most three and any enabled index type launches a registered task;
    - a matrix product (COO or CSR) launches a registered task exactly when the kernel, domain and range spaces
      are one-dimensional with 64-bit coordinates, on all other supported spaces the launched id is nobody's;
    - printing additionally works for 2-D and 3-D 64-bit domain and range spaces. *)
Theorem C32_which_launches_are_registered : forall c, config_ok c -> 3 <= max_dim c ->
  use_f32 c = true -> use_f64 c = true -> use_s64 c = true ->
  (forall b t, block_shape b = ShapeT ->
     exists i, task_id c (mk_task b (PT t)) = Some i /\ registered_id c i) /\
  (forall b t s, block_shape b = ShapeTDI -> index_enabled c (sp_type s) -> 1 <= sp_dim s <= 3 ->
     exists i, vector_launch_id c b t s = Some i /\ registered_id c i) /\
  (forall b t k d r, b = COO_MATVEC \/ b = CSR_MATVEC ->
     dim_supported c (sp_dim k) -> dim_supported c (sp_dim d) -> dim_supported c (sp_dim r) ->
     index_enabled c (sp_type k) -> index_enabled c (sp_type d) -> index_enabled c (sp_type r) ->
     exists i, matrix_launch_id c b t k d r = Some i /\
       (registered_id c i <-> k = mk_ispace 1 S64 /\ d = mk_ispace 1 S64 /\ r = mk_ispace 1 S64)) /\
  (forall b t k s, b = COO_PRINT \/ b = CSR_PRINT ->
     dim_supported c (sp_dim k) -> dim_supported c (sp_dim s) ->
     index_enabled c (sp_type k) -> index_enabled c (sp_type s) ->
     exists i, matrix_launch_id c b t k s s = Some i /\
       (registered_id c i <-> k = mk_ispace 1 S64 /\ sp_type s = S64 /\ 1 <= sp_dim s <= 3)).
Proof.
  intros c Hc H3 Hf Hd Hs.
  assert (HE: forall t, entry_enabled c t) by (intros []; assumption).
  split; [|split; [|split]].
  - intros b t Hb. assert (Hx: supported c (mk_task b (PT t))) by (unfold supported; cbn [t_block t_params]; rewrite Hb; apply HE).
    eexists. split; [apply (task_id_eq Hc Hx)|]. eexists. split; [|apply (task_id_eq Hc Hx)].
    unfold registered. rewrite !in_app_iff. left. unfold registered_scalar. apply in_flat_map. exists t.
    split; [apply in_etypes, HE|]. destruct b; try discriminate Hb; cbn; auto 20.
  - intros b t [n i] Hb Hi Hn. cbn [sp_type sp_dim] in *.
    destruct (C31_runtime_id_is_compile_time_id Hc) as (_ & H & _).
    destruct (H b t n i Hi (HE t)) as [E _]. unfold vector_launch_id. rewrite E.
    assert (Hx: supported c (mk_task b (PTDI t n i))).
    { unfold supported; cbn [t_block t_params]; rewrite Hb. unfold dim_supported. repeat split; [apply HE|lia|lia|exact Hi]. }
    eexists. split; [apply (task_id_eq Hc Hx)|]. eexists. split; [|apply (task_id_eq Hc Hx)].
    unfold registered. rewrite !in_app_iff. right. right. left. unfold registered_tdi. apply in_flat_map. exists b.
    split; [destruct b; try discriminate Hb; cbn; auto 20|].
    apply in_flat_map. exists t. split; [apply in_etypes, HE|]. apply in_flat_map. exists i. split; [apply in_itypes, Hi|].
    apply in_map_iff. exists n. split; [reflexivity|]. apply in_dims. lia.
  - intros b t [n1 i1] [n2 i2] [n3 i3] Hb D1 D2 D3 I1 I2 I3. cbn [sp_type sp_dim] in *.
    destruct (C31_runtime_id_is_compile_time_id Hc) as (_ & _ & H).
    destruct (H b t n1 n2 n3 i1 i2 i3 I1 I2 I3 (HE t)) as [E _]. unfold matrix_launch_id. rewrite E.
    assert (Hx: supported c (mk_task b (PTDDDIII t n1 n2 n3 i1 i2 i3))).
    { unfold supported; cbn [t_block t_params]. destruct Hb as [-> | ->]; cbn; repeat split; auto; unfold dim_supported in *; lia. }
    eexists. split; [apply (task_id_eq Hc Hx)|].
    rewrite (@registered_id_iff c _ _ Hc H3 Hf Hd Hs Hx (task_id_eq Hc Hx)), registered_tdddiii. split.
    + intros (-> & -> & -> & -> & -> & [[-> _]|[_ [-> | ->]]]); [auto|destruct Hb; discriminate|destruct Hb; discriminate].
    + intros (E1 & E2 & E3). injection E1 as -> ->. injection E2 as -> ->. injection E3 as -> ->.
      repeat split. left. split; [reflexivity|]. destruct Hb as [-> | ->]; reflexivity.
  - intros b t [n1 i1] [n3 i3] Hb D1 D3 I1 I3. cbn [sp_type sp_dim] in *.
    destruct (C31_runtime_id_is_compile_time_id Hc) as (_ & _ & H).
    destruct (H b t n1 n3 n3 i1 i3 i3 I1 I3 I3 (HE t)) as [E _]. unfold matrix_launch_id. rewrite E.
    assert (Hx: supported c (mk_task b (PTDDDIII t n1 n3 n3 i1 i3 i3))).
    { unfold supported; cbn [t_block t_params]. destruct Hb as [-> | ->]; cbn; repeat split; auto; unfold dim_supported in *; lia. }
    eexists. split; [apply (task_id_eq Hc Hx)|].
    rewrite (@registered_id_iff c _ _ Hc H3 Hf Hd Hs Hx (task_id_eq Hc Hx)), registered_tdddiii. split.
    + intros (-> & -> & _ & -> & _ & Hn). split; [reflexivity|]. split; [reflexivity|].
      destruct Hn as [[-> _]|[[-> | ->] _]]; lia.
    + intros (E1 & -> & Hn). injection E1 as -> ->. repeat split.
      assert (n3 = 1 \/ n3 = 2 \/ n3 = 3) as [-> |[-> | ->]] by lia;
        [left; split; [reflexivity|destruct Hb as [-> | ->]; reflexivity]| |];
        right; auto.
Qed.

(** The pinned configuration satisfies every hypothesis above, and the gap is real: a product over a 2-D grid, or
    over a 1-D space with 32-bit indices, launches an id nobody registered. *)
Lemma default_config_ok : config_ok default_config.
Proof. unfold config_ok. vm_compute. split; [discriminate|]. split; [discriminate|reflexivity]. Qed.

Theorem C32_unregistered_products :
  (forall t, exists i, matrix_launch_id default_config CSR_MATVEC t (mk_ispace 1 S64) (mk_ispace 2 S64) (mk_ispace 2 S64) = Some i /\
     ~ registered_id default_config i) /\
  (forall t, exists i, matrix_launch_id default_config COO_MATVEC t (mk_ispace 1 S32) (mk_ispace 1 S32) (mk_ispace 1 S32) = Some i /\
     ~ registered_id default_config i).
Proof.
  assert (D: forall n, 1 <= n <= 3 -> dim_supported default_config n) by (intros n H; unfold dim_supported; cbn; lia).
  assert (I: forall i, index_enabled default_config i) by (intros []; reflexivity).
  destruct (@C32_which_launches_are_registered default_config default_config_ok ltac:(cbn; lia) eq_refl eq_refl eq_refl)
    as (_ & _ & H & _).
  split; intros t.
  - destruct (H CSR_MATVEC t (mk_ispace 1 S64) (mk_ispace 2 S64) (mk_ispace 2 S64) (or_intror eq_refl)) as (i & E & Hi);
      try apply I; try (apply D; cbn; lia). exists i. split; [exact E|]. rewrite Hi. intros (_ & E' & _). discriminate E'.
  - destruct (H COO_MATVEC t (mk_ispace 1 S32) (mk_ispace 1 S32) (mk_ispace 1 S32) (or_introl eq_refl)) as (i & E & Hi);
      try apply I; try (apply D; cbn; lia). exists i. split; [exact E|]. rewrite Hi. intros (E' & _). discriminate E'.
Qed.

(** ------------------------------------------------------------------ C55 *)
(** print_index_partition (/repo/src/LegionUtilities.cpp:24-67) launches the instance looked up by the type of the
    *colour space*, while the task iterates over the pieces of the *parent* space: the instance that runs is the one
    for the parent space exactly when the two spaces have the same dimension and coordinate type. *)
Definition print_partition_launch_id (c : config) (colours : ispace) : Z := task_id_rt_di c PRINT_INDEX colours.
Theorem C55_print_partition_instance : forall c colours parent, config_ok c ->
  dim_supported c (sp_dim colours) -> dim_supported c (sp_dim parent) ->
  index_enabled c (sp_type colours) -> index_enabled c (sp_type parent) ->
  (task_id c (mk_task PRINT_INDEX (PDI (sp_dim parent) (sp_type parent))) = Some (print_partition_launch_id c colours)
   <-> colours = parent).
Proof.
  intros c [n i] [m j] Hc Dn Dm In Im. cbn [sp_dim sp_type] in *.
  destruct (C31_runtime_id_is_compile_time_id Hc) as (H & _ & _).
  unfold print_partition_launch_id. rewrite <- (H PRINT_INDEX n i In).
  assert (S1: supported c (mk_task PRINT_INDEX (PDI n i))) by (split; assumption).
  assert (S2: supported c (mk_task PRINT_INDEX (PDI m j))) by (split; assumption).
  destruct (@C30_task_ids_injective c _ _ Hc S2 S1) as (x & y & E1 & E2 & Hinj). rewrite E1, E2. split.
  - intros E. injection E as E. specialize (Hinj E). injection Hinj as -> ->. reflexivity.
  - intros E. injection E as -> ->. congruence.
Qed.
(** so printing a partition of a 2-D grid coloured by 0..k-1 runs the 1-D instance *)
Example C55_example : exists id,
  task_id default_config (mk_task PRINT_INDEX (PDI 1 S64)) = Some id /\
  print_partition_launch_id default_config (mk_ispace 1 S64) = id /\
  task_id default_config (mk_task PRINT_INDEX (PDI 2 S64)) <> Some id.
Proof. eexists. split; [vm_compute; reflexivity|]. split; [vm_compute; reflexivity|vm_compute; discriminate]. Qed.

(** non-vacuity of C30/C31 on the pinned configuration *)
Example C30_example :
  task_id default_config (mk_task SCAL (PTDI F64 2 S64)) = Some 557047 /\
  supported default_config (mk_task SCAL (PTDI F64 2 S64)) /\
  supported default_config (mk_task CSR_MATVEC (PTDDDIII F32 1 1 1 S64 S64 S64)) /\
  task_id default_config (mk_task SCAL (PTDI F64 2 S64)) <>
  task_id default_config (mk_task CSR_MATVEC (PTDDDIII F32 1 1 1 S64 S64 S64)).
Proof.
  split; [vm_compute; reflexivity|]. split; [unfold supported; cbn; unfold dim_supported; cbn; repeat split; lia|].
  split; [unfold supported; cbn; unfold dim_supported; cbn; repeat split; lia|]. vm_compute. discriminate.
Qed.
