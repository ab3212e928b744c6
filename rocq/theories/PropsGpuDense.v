(** PropsGpuDense: property C48 (the cuBLAS vector tasks and the memory layout of the instances). *)
From Coq Require Import Reals Lra.
From Verif Require Import Base Index IndexSpec IndexFacts Outcome Sched Async Arith Launch Vector ExactSum GpuDense.
Local Open Scope Z_scope.
Set Implicit Arguments.

(** ** Specification *)
(** different points of the piece have different addresses *)
Definition injective_on (i : instance) (b : rect) : Prop :=
  forall p q, in_box b p -> in_box b q -> ptr_of i p = ptr_of i q -> p = q.
(** the elements of the piece fill a block of consecutive addresses that starts at the lowest corner *)
Definition fills_block (i : instance) (b : rect) : Prop :=
  forall a, ptr_of i (lo b) <= a < ptr_of i (lo b) + volume b <-> exists p, in_box b p /\ a = ptr_of i p.
(** the instance stores the box [B] in C order (last coordinate fastest) or Fortran order, without padding *)
Definition stores (o : IndexOrder) (B : rect) (i : instance) : Prop :=
  exists first, forall p, in_box B p -> ptr_of i p = first + linearize o B p.

(** ** Facts *)
Lemma to_int_small z : 0 <= z < 2 ^ 31 -> to_int z = z.
Proof. intros H. unfold to_int. rewrite Z.mod_small by lia. destruct (z <? 2 ^ 31) eqn:E; [reflexivity|apply Z.ltb_ge in E; lia]. Qed.
Lemma to_int_lt z : to_int z < 2 ^ 31.
Proof. unfold to_int. destruct (z mod 2 ^ 32 <? 2 ^ 31) eqn:E; [apply Z.ltb_lt in E; exact E|]. pose proof (Z.mod_pos_bound z (2 ^ 32) ltac:(lia)). lia. Qed.
Lemma to_int_neg z : 2 ^ 31 <= z mod 2 ^ 32 -> to_int z < 0.
Proof. intros H. unfold to_int. destruct (z mod 2 ^ 32 <? 2 ^ 31) eqn:E; [apply Z.ltb_lt in E; lia|]. pose proof (Z.mod_pos_bound z (2 ^ 32) ltac:(lia)). lia. Qed.

Lemma nonempty_vol b : nonempty_box b -> 0 < volume b.
Proof. intros H. apply nonempty_volume. apply nonempty_box_aux. exact H. Qed.
Lemma lo_in_box b : nonempty_box b -> in_box b (lo b).
Proof. intros H. apply contains_iff. apply nonempty_contains_lo. apply nonempty_box_aux. exact H. Qed.

Definition addresses (i : instance) (b : rect) : list Z := map (ptr_of i) (box_points ROW_MAJOR b).
Lemma in_addresses i b a : nonempty_box b -> In a (addresses i b) <-> exists p, in_box b p /\ a = ptr_of i p.
Proof.
  intros Hn. unfold addresses. rewrite in_map_iff. split; intros [p [E H]]; exists p.
  - split; [apply (in_box_points ROW_MAJOR) in H; [exact H|apply nonempty_wf; exact Hn]|congruence].
  - split; [congruence|apply in_box_points; [apply nonempty_wf; exact Hn|exact E]].
Qed.
Lemma addresses_length i b : nonempty_box b -> Z.of_nat (length (addresses i b)) = volume b.
Proof. intros Hn. unfold addresses. rewrite map_length. apply box_points_length. apply nonempty_wf. exact Hn. Qed.
Lemma NoDup_map_in {X Y} (f : X -> Y) l : NoDup l -> (forall x y, In x l -> In y l -> f x = f y -> x = y) -> NoDup (map f l).
Proof.
  induction 1 as [|a l Ha Hl IH]; intros Hf; [constructor|]. cbn. constructor.
  - intros C. apply in_map_iff in C. destruct C as [x [E Hx]]. apply Ha. rewrite <- (Hf x a); [exact Hx|right; exact Hx|left; reflexivity|exact E].
  - apply IH. intros x y Hx Hy. apply Hf; right; assumption.
Qed.
Lemma addresses_NoDup i b : nonempty_box b -> injective_on i b -> NoDup (addresses i b).
Proof.
  intros Hn Hi. apply NoDup_map_in; [apply NoDup_box_points|]. intros p q Hp Hq. apply Hi; apply (in_box_points ROW_MAJOR); try assumption; apply nonempty_wf; exact Hn.
Qed.

(** pigeonhole: a layout either fills the block or leaves the block with some point and covers a foreign address *)
Lemma not_filling i b : nonempty_box b -> injective_on i b -> ~ fills_block i b ->
  (exists p, in_box b p /\ ~ ptr_of i (lo b) <= ptr_of i p < ptr_of i (lo b) + volume b) /\
  (exists a, ptr_of i (lo b) <= a < ptr_of i (lo b) + volume b /\ forall p, in_box b p -> a <> ptr_of i p).
Proof.
  intros Hn Hi Hf. set (R := zrange (ptr_of i (lo b)) (ptr_of i (lo b) + volume b - 1)).
  assert (HlenR : length R = length (addresses i b)).
  { unfold R. rewrite zrange_length. pose proof (addresses_length i Hn). lia. }
  assert (HR : forall a, In a R <-> ptr_of i (lo b) <= a < ptr_of i (lo b) + volume b).
  { intros a. unfold R. rewrite in_zrange. lia. }
  assert (Hdec : forall l1 l2 : list Z, {incl l1 l2} + {exists a, In a l1 /\ ~ In a l2}).
  { intros l1 l2. destruct (forallb (fun a => if in_dec Z.eq_dec a l2 then true else false) l1) eqn:E.
    - left. intros a Ha. rewrite forallb_forall in E. specialize (E a Ha). destruct (in_dec Z.eq_dec a l2); [assumption|discriminate].
    - right. apply Bool.not_true_iff_false in E.
      assert (X : ~ Forall (fun a => (if in_dec Z.eq_dec a l2 then true else false) = true) l1).
      { intros C. apply E. apply forallb_forall. apply Forall_forall. exact C. }
      apply Exists_exists. apply neg_Forall_Exists_neg in X; [|intros a; apply Bool.bool_dec].
      apply Exists_exists in X. destruct X as [a [Ha Hx]]. apply Exists_exists. exists a. split; [exact Ha|].
      intros C. apply Hx. destruct (in_dec Z.eq_dec a l2); [reflexivity|contradiction]. }
  assert (Hnot : ~ (incl (addresses i b) R /\ incl R (addresses i b))).
  { intros [I1 I2]. apply Hf. intros a. rewrite <- HR, <- (in_addresses i a Hn). split; [apply I2|apply I1]. }
  assert (NDa := addresses_NoDup Hn Hi). assert (NDr : NoDup R) by apply NoDup_zrange.
  split.
  - destruct (Hdec (addresses i b) R) as [I1|[a [Ha Hr]]].
    + exfalso. apply Hnot. split; [exact I1|]. apply NoDup_length_incl; [exact NDa|lia|exact I1].
    + apply in_addresses in Ha; [|exact Hn]. destruct Ha as [p [Hp ->]]. exists p. split; [exact Hp|]. rewrite <- HR. exact Hr.
  - destruct (Hdec R (addresses i b)) as [I1|[a [Ha Hr]]].
    + exfalso. apply Hnot. split; [|exact I1]. apply NoDup_length_incl; [exact NDr|lia|exact I1].
    + exists a. split; [apply HR; exact Ha|]. intros p Hp ->. apply Hr. apply in_addresses; [exact Hn|]. exists p. auto.
Qed.

Lemma stores_injective o B i b : stores o B i -> (forall p, in_box b p -> in_box B p) -> injective_on i b.
Proof.
  intros [f H] Hsub p q Hp Hq E. rewrite (H p (Hsub p Hp)), (H q (Hsub q Hq)) in E.
  apply (linearize_inj o B); [apply Hsub; exact Hp|apply Hsub; exact Hq|lia].
Qed.
Lemma shifted_fills o b i : nonempty_box b -> (forall p, in_box b p -> ptr_of i p = ptr_of i (lo b) + linearize o b p) -> fills_block i b.
Proof.
  intros Hn H a. split.
  - intros Ha. destruct (linearize_surj o b (a - ptr_of i (lo b)) Hn ltac:(lia)) as [p [Hp E]]. exists p. split; [exact Hp|]. rewrite (H p Hp). lia.
  - intros [p [Hp ->]]. rewrite (H p Hp). pose proof (linearize_range o b p Hp). lia.
Qed.

(** ** C48, layouts: which instances fill the block *)
Lemma linearize_lo o b : nonempty_box b -> linearize o b (lo b) = 0.
Proof.
  intros Hn. destruct (linearize_surj o b 0 Hn) as [p [Hp E]]; [pose proof (nonempty_vol Hn); lia|].
  pose proof (linearize_range o b (lo b) (lo_in_box Hn)) as Hr.
  destruct (Z.eq_dec (linearize o b (lo b)) 0) as [|Hne]; [assumption|exfalso].
  assert (Hlt : linearize o b p < linearize o b (lo b)) by lia.
  apply (linearize_mono o b p (lo b) Hp (lo_in_box Hn)) in Hlt.
  apply compare_order_lt in Hlt; [|destruct Hp as (L & _); exact L].
  destruct Hp as (L1 & L2 & Hp). destruct o; destruct Hlt as (j & J1 & J2 & J3 & _); specialize (Hp j J1); lia.
Qed.

(** two boxes that differ in the slowest coordinate only *)
Definition slab (o : IndexOrder) (b B : rect) : Prop :=
  match o with
  | ROW_MAJOR => tl (lo b) = tl (lo B) /\ tl (hi b) = tl (hi B)
  | COLUMN_MAJOR => removelast (lo b) = removelast (lo B) /\ removelast (hi b) = removelast (hi B)
  end.

Lemma slab_shift o b B p : nonempty_box b -> nonempty_box B -> (forall q, in_box b q -> in_box B q) -> lo b <> [] -> slab o b B -> in_box b p ->
  linearize o B p - linearize o B (lo b) = linearize o b p.
Proof.
  intros Hb HB Hsub Hnil Hs Hp.
  assert (HlB : in_box B (lo b)) by (apply Hsub; apply lo_in_box; exact Hb). assert (HpB := Hsub p Hp).
  destruct Hp as (P1 & P2 & P3). destruct HlB as (L1 & L2 & L3). destruct b as [l h]. destruct B as [L H]. cbn [lo hi] in *.
  apply nonempty_box_aux in Hb. apply nonempty_box_aux in HB. cbn [lo hi] in *.
  enough (G : linearize o (mk_rect L H) p - linearize o (mk_rect L H) l = linearize o (mk_rect l h) p - linearize o (mk_rect l h) l).
  { pose proof (linearize_lo o (b := mk_rect l h) (proj2 (nonempty_box_aux (mk_rect l h)) Hb)) as Z0. cbn [lo] in Z0. lia. }
  destruct o; unfold linearize, linearize_row_major, linearize_column_major; cbn [lo hi slab] in *.
  - destruct l as [|l0 l]; [congruence|]. destruct h as [|h0 h]; [discriminate|]. destruct p as [|x p]; [discriminate|].
    destruct L as [|L0 L]; [discriminate|]. destruct H as [|H0 H]; [discriminate|]. cbn [tl] in Hs. destruct Hs as [-> ->].
    destruct Hb as [_ Hb]. cbn [length] in *. rewrite !linearize_rm_cons by (try exact Hb; lia). lia.
  - rewrite !linearize_cm_acc by lia.
    destruct Hs as [S1 S2].
    assert (Hh : h <> []) by (intros ->; destruct l; [congruence|discriminate]).
    assert (HL : L <> []) by (intros ->; destruct l; [congruence|discriminate]).
    assert (HH : H <> []) by (intros ->; destruct L; [congruence|discriminate]).
    assert (Hpn : p <> []) by (intros ->; destruct l; [congruence|discriminate]).
    clear P3 L3 HpB Hsub.
    destruct (exists_last Hnil) as (l' & l0 & ->). destruct (exists_last Hh) as (h' & h0 & ->).
    destruct (exists_last HL) as (L' & L0 & ->). destruct (exists_last HH) as (H' & H0 & ->). destruct (exists_last Hpn) as (p' & x & ->).
    rewrite !removelast_last in S1, S2. subst L' H'. rewrite !rev_app_distr. cbn [rev app].
    apply nonempty_aux_rev in Hb. rewrite !rev_app_distr in Hb. cbn [rev app] in Hb. destruct Hb as [_ Hb].
    rewrite !app_length in *. cbn [length] in *.
    rewrite !linearize_rm_cons by (try exact Hb; rewrite !rev_length; lia). lia.
Qed.

(** An instance made for the whole box [B], in C or Fortran order, fills the block of a piece that is a slab of [B]
    (differs from [B] in the slowest coordinate only): in particular the piece itself, and every one-dimensional piece. *)
Theorem C48_slabs_fill : forall o b B i,
  nonempty_box b -> nonempty_box B -> lo b <> [] -> (forall p, in_box b p -> in_box B p) -> stores o B i -> slab o b B ->
  injective_on i b /\ fills_block i b.
Proof.
  intros o b B i Hb HB Hnil Hsub Hst Hs. split; [apply (stores_injective Hst Hsub)|].
  apply (shifted_fills o _ Hb). intros p Hp. destruct Hst as [f Hf].
  rewrite (Hf p (Hsub p Hp)), (Hf (lo b) (Hsub (lo b) (lo_in_box Hb))).
  pose proof (slab_shift o Hb HB Hsub Hnil Hs Hp). lia.
Qed.
Theorem C48_own_instance_fills : forall o b i, nonempty_box b -> lo b <> [] -> stores o b i -> injective_on i b /\ fills_block i b.
Proof. intros o b i Hb Hnil Hst. apply (@C48_slabs_fill o b b i); auto. destruct o; split; reflexivity. Qed.
Theorem C48_1d_fills : forall l h L H i, L <= l -> l <= h -> h <= H -> stores ROW_MAJOR (mk_rect [L] [H]) i ->
  injective_on i (mk_rect [l] [h]) /\ fills_block i (mk_rect [l] [h]).
Proof.
  intros l h L H i H1 H2 H3 Hst. apply (@C48_slabs_fill ROW_MAJOR _ (mk_rect [L] [H]) i); try assumption.
  - apply nonempty_box_aux. cbn. lia.
  - apply nonempty_box_aux. cbn. lia.
  - discriminate.
  - intros p Hp. apply contains_iff in Hp. apply contains_iff. unfold contains in *. cbn [lo hi] in *.
    destruct p as [|x [|y p]]; cbn in *; try discriminate; rewrite ?andb_true_r in *; [|rewrite andb_false_r in Hp; discriminate].
    apply andb_true_iff in Hp. destruct Hp as [P1 P2]. apply Z.leb_le in P1. apply Z.leb_le in P2. apply andb_true_iff. split; apply Z.leb_le; lia.
  - split; reflexivity.
Qed.

Section Ops.
Variables (T : Type) (A : arith T) (mac : T -> T -> T -> T).

(** ** C48, scal.  With a layout that fills the block and fewer than 2^31 elements, exactly the elements of the piece
    are multiplied by alpha, each once, and nothing else changes. *)
Theorem C48_scal : forall alpha b i m, nonempty_box b -> volume b < 2 ^ 31 -> fills_block i b ->
  exists m', scal_cuda A alpha (Dense b) i m = Ok m' /\
    (forall p, in_box b p -> m' (ptr_of i p) = amul A alpha (m (ptr_of i p))) /\
    (forall a, (forall p, in_box b p -> a <> ptr_of i p) -> m' a = m a).
Proof.
  intros alpha b i m Hn Hv Hf. pose proof (nonempty_vol Hn) as Hp. unfold scal_cuda. cbn [dense oassert].
  rewrite (proj2 (Z.eqb_neq _ _)) by lia. rewrite to_int_small by lia. eexists. split; [reflexivity|]. unfold cublas_scal. split.
  - intros p Hin. assert (R : ptr_of i (lo b) <= ptr_of i p < ptr_of i (lo b) + volume b) by (apply Hf; exists p; auto).
    rewrite (proj2 (Z.leb_le _ _)), (proj2 (Z.ltb_lt _ _)) by lia. reflexivity.
  - intros a Ha. destruct ((ptr_of i (lo b) <=? a) && (a <? ptr_of i (lo b) + volume b)) eqn:E; [|reflexivity].
    apply andb_true_iff in E. destruct E as [E1 E2]. apply Z.leb_le in E1. apply Z.ltb_lt in E2.
    destruct (proj1 (Hf a) ltac:(lia)) as [p [Hin ->]]. destruct (Ha p Hin eq_refl).
Qed.
(** For every other layout some element of the piece is left unchanged and some element outside the piece is
    overwritten. *)
Theorem C48_scal_other_layouts : forall alpha b i m, nonempty_box b -> volume b < 2 ^ 31 -> injective_on i b -> ~ fills_block i b ->
  exists m', scal_cuda A alpha (Dense b) i m = Ok m' /\
    (exists p, in_box b p /\ m' (ptr_of i p) = m (ptr_of i p)) /\
    (exists a, (forall p, in_box b p -> a <> ptr_of i p) /\ m' a = amul A alpha (m a)).
Proof.
  intros alpha b i m Hn Hv Hi Hf. pose proof (nonempty_vol Hn) as Hp. unfold scal_cuda. cbn [dense oassert].
  rewrite (proj2 (Z.eqb_neq _ _)) by lia. rewrite to_int_small by lia. eexists. split; [reflexivity|]. unfold cublas_scal.
  destruct (not_filling Hn Hi Hf) as [[p [Hin Hout]] [a [Ha Hforeign]]]. split.
  - exists p. split; [exact Hin|]. destruct ((ptr_of i (lo b) <=? ptr_of i p) && (ptr_of i p <? ptr_of i (lo b) + volume b)) eqn:E; [|reflexivity].
    apply andb_true_iff in E. destruct E as [E1 E2]. apply Z.leb_le in E1. apply Z.ltb_lt in E2. lia.
  - exists a. split; [exact Hforeign|]. rewrite (proj2 (Z.leb_le _ _)), (proj2 (Z.ltb_lt _ _)) by lia. reflexivity.
Qed.
(** 2^31 elements or more do not fit the [int] count: some element is left unchanged; when the count becomes negative
    nothing at all is done. *)
Theorem C48_count_overflow : forall alpha b i m, nonempty_box b -> 2 ^ 31 <= volume b -> fills_block i b ->
  exists m', scal_cuda A alpha (Dense b) i m = Ok m' /\
    (exists p, in_box b p /\ m' (ptr_of i p) = m (ptr_of i p)) /\
    (2 ^ 31 <= volume b mod 2 ^ 32 -> forall a, m' a = m a).
Proof.
  intros alpha b i m Hn Hv Hf. unfold scal_cuda. cbn [dense oassert].
  rewrite (proj2 (Z.eqb_neq _ _)) by lia. eexists. split; [reflexivity|]. unfold cublas_scal. pose proof (to_int_lt (volume b)). split.
  - destruct (proj1 (Hf (ptr_of i (lo b) + volume b - 1)) ltac:(lia)) as [p [Hin E]]. exists p. split; [exact Hin|]. rewrite <- E.
    replace (ptr_of i (lo b) + volume b - 1 <? ptr_of i (lo b) + to_int (volume b)) with false by (symmetry; apply Z.ltb_ge; lia).
    rewrite andb_false_r. reflexivity.
  - intros Hneg a. apply to_int_neg in Hneg. destruct (ptr_of i (lo b) <=? a) eqn:E; [|reflexivity]. apply Z.leb_le in E.
    replace (a <? ptr_of i (lo b) + to_int (volume b)) with false by (symmetry; apply Z.ltb_ge; lia). reflexivity.
Qed.

(** ** C48, axpy.  Both layouts fill the block and have the same strides: every element of the piece receives
    alpha*x+y of the same point, nothing else changes. *)
Theorem C48_axpy : forall alpha b y x m, nonempty_box b -> volume b < 2 ^ 31 -> fills_block y b -> i_strides x = i_strides y ->
  exists m', axpy_cuda mac alpha (Dense b) y x m = Ok m' /\
    (forall p, in_box b p -> m' (ptr_of y p) = mac alpha (m (ptr_of x p)) (m (ptr_of y p))) /\
    (forall a, (forall p, in_box b p -> a <> ptr_of y p) -> m' a = m a).
Proof.
  intros alpha b i x m Hn Hv Hf Hst. pose proof (nonempty_vol Hn) as Hp. unfold axpy_cuda. cbn [dense oassert].
  rewrite (proj2 (Z.eqb_neq _ _)) by lia. rewrite to_int_small by lia. eexists. split; [reflexivity|]. unfold cublas_axpy. split.
  - intros p Hin. assert (R : ptr_of i (lo b) <= ptr_of i p < ptr_of i (lo b) + volume b) by (apply Hf; exists p; auto).
    rewrite (proj2 (Z.leb_le _ _)), (proj2 (Z.ltb_lt _ _)) by lia. cbn [andb]. f_equal. f_equal. unfold ptr_of. rewrite Hst. lia.
  - intros a Ha. destruct ((ptr_of i (lo b) <=? a) && (a <? ptr_of i (lo b) + volume b)) eqn:E; [|reflexivity].
    apply andb_true_iff in E. destruct E as [E1 E2]. apply Z.leb_le in E1. apply Z.ltb_lt in E2.
    destruct (proj1 (Hf a) ltac:(lia)) as [p [Hin ->]]. destruct (Ha p Hin eq_refl).
Qed.

(** ** C48, dot.  Same strides on both sides: the result adds exactly the products of the points of the piece. *)
Lemma reduces_perm l l' r : Permutation l l' -> reduces_to A l r -> reduces_to A l' r.
Proof.
  intros HP H. destruct H as [|x|l l1 l2 x y HP2 H1 H2].
  - apply Permutation_nil in HP. subst. constructor.
  - apply Permutation_length_1_inv in HP. subst. constructor.
  - econstructor; [|exact H1|exact H2]. transitivity l; [symmetry; exact HP|exact HP2].
Qed.
Lemma block_perm i b : nonempty_box b -> injective_on i b -> fills_block i b ->
  Permutation (map (fun k => ptr_of i (lo b) + k) (zrange 0 (volume b - 1))) (map (ptr_of i) (box_points ROW_MAJOR b)).
Proof.
  intros Hn Hi Hf. apply NoDup_Permutation.
  - apply NoDup_map_in; [apply NoDup_zrange|intros; lia].
  - apply (addresses_NoDup Hn Hi).
  - intros a. fold (addresses i b). rewrite (in_addresses i a Hn), <- (Hf a), in_map_iff. split.
    + intros [k [<- Hk]]. apply in_zrange in Hk. lia.
    + intros Ha. exists (a - ptr_of i (lo b)). split; [lia|]. apply in_zrange. lia.
Qed.
Theorem C48_dot : forall b v w m r, nonempty_box b -> volume b < 2 ^ 31 -> injective_on v b -> fills_block v b -> i_strides w = i_strides v ->
  exists P, dot_cuda A (Dense b) v w m r = Ok P /\
    (P <-> reduces_to A (map (fun p => amul A (m (ptr_of v p)) (m (ptr_of w p))) (box_points ROW_MAJOR b)) r).
Proof.
  intros b v w m r Hn Hv Hi Hf Hst. pose proof (nonempty_vol Hn) as Hp. unfold dot_cuda. cbn [dense oassert].
  rewrite (proj2 (Z.eqb_neq _ _)) by lia. rewrite to_int_small by lia. eexists. split; [reflexivity|]. unfold cublas_dot.
  set (d := i_base w - i_base v).
  assert (E1 : map (fun k => amul A (m (ptr_of v (lo b) + k)) (m (ptr_of w (lo b) + k))) (zrange 0 (volume b - 1)) =
     map (fun a => amul A (m a) (m (a + d))) (map (fun k => ptr_of v (lo b) + k) (zrange 0 (volume b - 1)))).
  { rewrite map_map. apply map_ext. intros k. do 2 f_equal. unfold ptr_of, d. rewrite Hst. lia. }
  assert (E2 : map (fun p => amul A (m (ptr_of v p)) (m (ptr_of w p))) (box_points ROW_MAJOR b) =
     map (fun a => amul A (m a) (m (a + d))) (map (ptr_of v) (box_points ROW_MAJOR b))).
  { rewrite map_map. apply map_ext. intros p. do 2 f_equal. unfold ptr_of, d. rewrite Hst. lia. }
  rewrite E1, E2. assert (HP := Permutation_map (fun a => amul A (m a) (m (a + d))) (block_perm Hn Hi Hf)).
  split; intros H; [exact (reduces_perm HP H)|exact (reduces_perm (Permutation_sym HP) H)].
Qed.

(** Empty pieces do nothing; a sparse piece aborts (dot: and so on). *)
Theorem C48_degenerate_pieces : forall alpha i j m,
  (forall b, volume b = 0 -> scal_cuda A alpha (Dense b) i m = Ok m /\ axpy_cuda mac alpha (Dense b) i j m = Ok m /\
     forall r, dot_cuda A (Dense b) i j m r = Ok (r = a0 A)) /\
  (forall ps, scal_cuda A alpha (Sparse ps) i m = AssertFail /\ axpy_cuda mac alpha (Sparse ps) i j m = AssertFail /\
     forall r, dot_cuda A (Sparse ps) i j m r = AssertFail).
Proof.
  intros alpha i j m. split; [|intros; repeat split; reflexivity].
  intros b Hb. unfold scal_cuda, axpy_cuda, dot_cuda. cbn [dense oassert]. rewrite Hb. repeat split; reflexivity.
Qed.
End Ops.

(** ** Concrete cases *)
(** A 2x2 piece in its own C-order instance satisfies the hypotheses. *)
Example own_2x2 : stores ROW_MAJOR (mk_rect [3; 5] [4; 6]) (mk_instance 100 [2; 1]) /\ nonempty_box (mk_rect [3; 5] [4; 6]).
Proof.
  split; [|apply nonempty_box_aux; cbn; lia]. exists 111. intros p (H1 & _ & _). cbn [lo length] in H1.
  destruct p as [|x [|y [|z p]]]; try discriminate. cbv [ptr_of i_base i_strides offset linearize linearize_row_major linearize_row_major_aux lo hi fst]. lia.
Qed.
(** The 2x2 piece {0,1}x{0,1} of a 2x3 box stored in C order does not fill its block: the element (1,1) is skipped and
    the element (0,2), which belongs to another piece, is modified. *)
Theorem C48_sub_box_of_larger_instance : forall (T : Type) (A : arith T) alpha m,
  let whole := mk_rect [0; 0] [1; 2] in let piece := mk_rect [0; 0] [1; 1] in let i := mk_instance 0 [3; 1] in
  stores ROW_MAJOR whole i /\ (forall p, in_box piece p -> in_box whole p) /\ ~ fills_block i piece /\ injective_on i piece /\
  exists m', scal_cuda A alpha (Dense piece) i m = Ok m' /\
    m' (ptr_of i [1; 1]) = m (ptr_of i [1; 1]) /\ in_box piece [1; 1] /\
    m' (ptr_of i [0; 2]) = amul A alpha (m (ptr_of i [0; 2])) /\ ~ in_box piece [0; 2].
Proof.
  intros T A alpha m whole piece i.
  assert (S : stores ROW_MAJOR whole i).
  { exists 0. intros p (H1 & _ & _). cbn [lo length whole] in H1. destruct p as [|x [|y [|z p]]]; try discriminate.
    cbv [ptr_of i_base i_strides offset linearize linearize_row_major linearize_row_major_aux lo hi fst i whole]. lia. }
  assert (Sub : forall p, in_box piece p -> in_box whole p).
  { intros p (H1 & H2 & H3). split; [exact H1|]. split; [reflexivity|]. intros k Hk. specialize (H3 k Hk).
    cbn [lo hi whole piece length] in *. destruct k as [|[|k]]; cbn [nth] in *; try lia. }
  split; [exact S|]. split; [exact Sub|].
  assert (In11 : in_box piece [1; 1]) by (apply contains_iff; reflexivity).
  split; [intros F; destruct (proj2 (F 4) (ex_intro _ [1; 1] (conj In11 eq_refl))) as [_ C]; cbv in C; discriminate|].
  split; [apply (stores_injective S Sub)|]. eexists. split; [reflexivity|]. split; [reflexivity|]. split; [exact In11|].
  split; [reflexivity|]. intros C. apply contains_iff in C. discriminate.
Qed.
(** y in C order and x in Fortran order, both exactly for the 2x2 piece: y(0,1) receives x(1,0). *)
Theorem C48_mixed_orders : forall (T : Type) (mac : T -> T -> T -> T) alpha m,
  let piece := mk_rect [0; 0] [1; 1] in let y := mk_instance 0 [2; 1] in let x := mk_instance 4 [1; 2] in
  stores ROW_MAJOR piece y /\ stores COLUMN_MAJOR piece x /\
  exists m', axpy_cuda mac alpha (Dense piece) y x m = Ok m' /\
    m' (ptr_of y [0; 1]) = mac alpha (m (ptr_of x [1; 0])) (m (ptr_of y [0; 1])).
Proof.
  intros T mac alpha m piece y x. split; [|split].
  - exists 0. intros p (H1 & _ & _). cbn [lo length piece] in H1. destruct p as [|a [|b [|z p]]]; try discriminate.
    cbv [ptr_of i_base i_strides offset linearize linearize_row_major linearize_row_major_aux lo hi fst y piece]. lia.
  - exists 4. intros p (H1 & _ & _). cbn [lo length piece] in H1. destruct p as [|a [|b [|z p]]]; try discriminate.
    cbv [ptr_of i_base i_strides offset linearize linearize_column_major linearize_column_major_aux lo hi fst x piece]. lia.
  - eexists. split; reflexivity.
Qed.
