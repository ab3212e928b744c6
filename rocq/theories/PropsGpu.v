(** PropsGpu: properties C45 and C46 (GPU matrix products). *)
From Coq Require Import Reals Lra.
From Verif Require Import Base Index Outcome Sched Async Arith Launch Vector PartitionSpec VectorFacts LaunchFacts
  Matrix MatrixSpec MatrixFacts ExactSum Pitches PropsPitches Gpu.
Local Open Scope Z_scope.
Set Implicit Arguments.

(** ** Specification *)
(** the domain has no gaps *)
Definition contiguous (d : list Z) : Prop := d = zrange (dom_lo d) (dom_hi d).
(** a domain lists its points in increasing order *)
Definition increasing (d : list Z) : Prop := StronglySorted Z.lt d.
(** one-dimensional points *)
Definition pt (z : Z) : point := [z].
(** an instance at [base] holds the values [f z] for the points of [d] *)
Definition holds {X} (mem : Z -> option X) (base : Z) (d : list Z) (f : Z -> X) : Prop :=
  forall z, In z d -> mem (base + z) = Some (f z).

Lemma zrange_shift a b k : map (fun z => z + k) (zrange a b) = zrange (a + k) (b + k).
Proof. unfold zrange. rewrite map_map. replace (b + k - (a + k) + 1) with (b - a + 1) by lia. apply map_ext. intros i. lia. Qed.
Lemma zrange_lo a b : a <= b -> dom_lo (zrange a b) = a.
Proof. intros H. rewrite zrange_cons by exact H. reflexivity. Qed.
Lemma zrange_hi a b : a <= b -> dom_hi (zrange a b) = b.
Proof.
  intros H. unfold dom_hi. rewrite (zrange_app (a:=a) (b:=b-1) (c:=b)) by lia.
  replace (b - 1 + 1) with b by lia. rewrite (zrange_cons (a:=b) (b:=b)) by lia. rewrite (zrange_nil (a:=b+1) (b:=b)) by lia. apply last_last.
Qed.
Lemma zrange_volume a b : a <= b + 1 -> dom_volume (zrange a b) = b - a + 1.
Proof. intros H. unfold dom_volume. rewrite zrange_length. lia. Qed.

Lemma last_In {X} (l : list X) d : l <> [] -> In (last l d) l.
Proof.
  induction l as [|a l IH]; intros H; [congruence|]. destruct l as [|b l]; [left; reflexivity|].
  right. apply IH. discriminate.
Qed.
Lemma increasing_hi d z : increasing d -> In z d -> z <= dom_hi d.
Proof.
  unfold dom_hi. intros H. induction H as [|a l Hs IH Hf]; intros Hin; [destruct Hin|].
  destruct l as [|b l]; [destruct Hin as [<-|[]]; cbn; lia|]. change (last (a :: b :: l) 0) with (last (b :: l) 0).
  destruct Hin as [<-|Hin]; [|apply IH; exact Hin]. rewrite Forall_forall in Hf.
  assert (In (last (b :: l) 0) (b :: l)) by (apply last_In; discriminate). apply Hf in H. lia.
Qed.
Lemma increasing_lo d z : increasing d -> In z d -> dom_lo d <= z.
Proof.
  intros H Hin. inversion H as [|a l Hs Hf]; subst; [destruct Hin|]. cbn. destruct Hin as [<-|Hin]; [lia|].
  rewrite Forall_forall in Hf. apply Hf in Hin. lia.
Qed.

Lemma somes_all {X Y} (f : X -> option Y) (g : X -> Y) l : (forall x, In x l -> f x = Some (g x)) -> somes (map f l) = map g l.
Proof.
  induction l as [|a l IH]; intros H; [reflexivity|]. unfold somes in *. cbn [map flat_map]. rewrite (H a (or_introl eq_refl)).
  cbn [app]. f_equal. apply IH. intros x Hx. apply H. right. exact Hx.
Qed.
Lemma mem_pt z l : mem (pt z) (map pt l) = true <-> In z l.
Proof.
  rewrite mem_spec, in_map_iff. split; [intros [x [E H]]; injection E as ->; exact H|intros H; exists z; split; [reflexivity|exact H]].
Qed.

Notation T := (option R).
Notation run := (run loc_dec).
Definition separate (dst src : pvec) : Prop := forall p q, at_point dst p <> at_point src q.

(** the exact sum of the products of the entries at the positions [ks] *)
Definition row_sum (entry : Z -> T) (col : Z -> Z) (x : Z -> T) (ks : list Z) : T :=
  osum (map (fun k => lift2 Rmult (entry k) (x (col k))) ks).

Lemma nil_dec {X} (l : list X) : {l = []} + {l <> []}.
Proof. destruct l; [left; reflexivity|right; discriminate]. Qed.
Lemma coo_call_some odom kdom idom by_ brow bcol bval bx : kdom <> [] -> coo_call odom kdom idom by_ brow bcol bval bx =
  Some (makeCuSparseCOO (dom_hi odom + 1) (dom_hi idom + 1) kdom brow bcol bval,
        makeShiftedCuSparseDnVec idom (dom_hi idom + 1) bx, makeShiftedCuSparseDnVec odom (dom_hi odom + 1) by_).
Proof. unfold coo_call. destruct kdom; [congruence|reflexivity]. Qed.
Section Coo.
Variables (m : coo T) (dst src : pvec) (s : store loc T).
Variables (odom kdom idom : list Z) (row col : Z -> Z).
Variables (by_ brow bcol bval bx : Z) (dev : device T).
(** the piece of the matrix: one-dimensional row and column fields, owned rows and available columns *)
Hypothesis Hrow : forall k, In k kdom -> co_row m (pt k) = pt (row k).
Hypothesis Hcol : forall k, In k kdom -> co_col m (pt k) = pt (col k).
Hypothesis Hin_o : forall k, In k kdom -> In (row k) odom.
Hypothesis Hin_i : forall k, In k kdom -> In (col k) idom.
Hypothesis Hsep : separate dst src.

Lemma cpu_coo r : In r odom ->
  run (coo_task exact m dst src (map pt odom) (map pt kdom) (map pt idom)) s (at_point dst (pt r)) =
  lift2 Rplus (s (at_point dst (pt r)))
    (row_sum (fun k => co_entry m (pt k)) col (fun c => s (at_point src (pt c))) (filter (fun k => row k =? r) kdom)).
Proof.
  intros Hr. rewrite coo_task_entries. rewrite run_accumulate by exact Hsep. rewrite accumulate_row_exact. f_equal. unfold row_sum. f_equal.
  unfold coo_entries. rewrite flat_map_map. clear Hr dev.
  assert (G : forall l, incl l kdom ->
    map (fun t => let '(_, c, e) := t in lift2 Rmult e (s (at_point src c)))
      (filter (fun t : point * point * T => if point_eq_dec (fst (fst t)) (pt r) then true else false)
        (flat_map (fun k => if mem (co_col m (pt k)) (map pt idom) && mem (co_row m (pt k)) (map pt odom)
           then [(co_row m (pt k), co_col m (pt k), co_entry m (pt k))] else []) l)) =
    map (fun k => lift2 Rmult (co_entry m (pt k)) (s (at_point src (pt (col k))))) (filter (fun k => row k =? r) l)).
  { induction l as [|k l IH]; intros Hl; [reflexivity|]. cbn [flat_map filter].
    assert (Hk : In k kdom) by (apply Hl; left; reflexivity).
    assert (Hl' : incl l kdom) by (intros x Hx; apply Hl; right; exact Hx).
    rewrite (Hcol _ Hk), (Hrow _ Hk).
    assert (E1 : mem (pt (col k)) (map pt idom) = true) by (apply mem_pt; auto).
    assert (E2 : mem (pt (row k)) (map pt odom) = true) by (apply mem_pt; auto).
    rewrite E1, E2. cbn [andb app filter fst snd].
    destruct (point_eq_dec (pt (row k)) (pt r)) as [E|E].
    - injection E as E. rewrite (proj2 (Z.eqb_eq _ _) E). cbn [map]. f_equal. apply IH. exact Hl'.
    - destruct (row k =? r) eqn:E3; [apply Z.eqb_eq in E3; rewrite E3 in E; congruence|]. apply IH. exact Hl'. }
  apply G. apply incl_refl.
Qed.

(** hypotheses on the device: the instances hold the matrix piece, the source and the destination *)
Hypothesis Hinc_o : increasing odom.
Hypothesis Hinc_i : increasing idom.
Hypothesis Hpos_o : forall r, In r odom -> 0 <= r.
Hypothesis Hpos_i : forall c, In c idom -> 0 <= c.
Hypothesis Drow : holds (idxs dev) brow kdom row.
Hypothesis Dcol : holds (idxs dev) bcol kdom col.
Hypothesis Dval : holds (vals dev) bval kdom (fun k => co_entry m (pt k)).
Hypothesis Dx : holds (vals dev) bx idom (fun c => s (at_point src (pt c))).
Hypothesis Dy : holds (vals dev) by_ odom (fun r => s (at_point dst (pt r))).
Hypothesis Hcont : contiguous kdom.
Hypothesis Hsorted : forall k, In k kdom -> In (k + 1) kdom -> row k <= row (k + 1).

Lemma kdom_shape : kdom <> [] -> exists a b, a <= b /\ kdom = zrange a b /\ dom_lo kdom = a /\ dom_volume kdom = b - a + 1.
Proof.
  intros Hn. assert (Hc : kdom = zrange (dom_lo kdom) (dom_hi kdom)) by exact Hcont. exists (dom_lo kdom), (dom_hi kdom).
  assert (dom_lo kdom <= dom_hi kdom).
  { destruct (Z_le_gt_dec (dom_lo kdom) (dom_hi kdom)) as [H|H]; [exact H|]. exfalso. apply Hn. rewrite Hc. apply zrange_nil. lia. }
  split; [assumption|]. split; [exact Hcont|]. split; [reflexivity|]. rewrite Hc at 1. apply zrange_volume. lia.
Qed.
Lemma in_kdom a b k : kdom = zrange a b -> 0 <= k < b - a + 1 -> In (a + k) kdom.
Proof. intros -> H. apply in_zrange. lia. Qed.

Lemma gpu_coo_legal : coo_cuda_legal odom kdom idom by_ brow bcol bval bx dev.
Proof.
  unfold coo_cuda_legal. destruct (nil_dec kdom) as [Ek|Hn]; [rewrite Ek; exact I|]. rewrite (coo_call_some _ _ _ _ _ _ _ Hn).
  destruct (kdom_shape Hn) as (a & b & Hab & Eshape & Elo & Evol).
  assert (Hin : forall k, 0 <= k < b - a + 1 -> In (a + k) kdom) by (intros k; apply in_kdom; exact Eshape).
  unfold spmv_coo_legal, makeCuSparseCOO, makeShiftedCuSparseDnVec, ptr. cbn [dn_size dn_ptr cd_rows cd_cols cd_nnz cd_row cd_col cd_val].
  rewrite Elo, Evol. repeat split.
  - intros k Hk. specialize (Hin k Hk).
    exists (row (a + k)), (col (a + k)), (co_entry m (pt (a + k))), (s (at_point src (pt (col (a + k))))), (s (at_point dst (pt (row (a + k))))).
    replace (brow + a + k) with (brow + (a + k)) by lia. replace (bcol + a + k) with (bcol + (a + k)) by lia.
    replace (bval + a + k) with (bval + (a + k)) by lia.
    rewrite (Drow _ Hin), (Dcol _ Hin), (Dval _ Hin).
    replace (bx + dom_lo idom - dom_lo idom + col (a + k)) with (bx + col (a + k)) by lia.
    replace (by_ + dom_lo odom - dom_lo odom + row (a + k)) with (by_ + row (a + k)) by lia.
    rewrite (Dx _ (Hin_i _ Hin)), (Dy _ (Hin_o _ Hin)).
    pose proof (increasing_hi _ Hinc_o (Hin_o _ Hin)). pose proof (increasing_hi _ Hinc_i (Hin_i _ Hin)).
    pose proof (Hpos_o _ (Hin_o _ Hin)). pose proof (Hpos_i _ (Hin_i _ Hin)).
    repeat split; lia.
  - intros k r r' H0 H1 E E'. assert (I1 : In (a + k) kdom) by (apply Hin; lia). assert (I2 : In (a + (k + 1)) kdom) by (apply Hin; lia).
    replace (brow + a + k) with (brow + (a + k)) in E by lia. replace (brow + a + (k + 1)) with (brow + (a + (k + 1))) in E' by lia.
    rewrite (Drow _ I1) in E. rewrite (Drow _ I2) in E'. injection E as <-. injection E' as <-.
    replace (a + (k + 1)) with (a + k + 1) in * by lia. apply Hsorted; assumption.
Qed.

Lemma gpu_coo_effect dev' : coo_cuda exact odom kdom idom by_ brow bcol bval bx dev dev' ->
  (forall r, In r odom -> vals dev' (by_ + r) =
     Some (run (coo_task exact m dst src (map pt odom) (map pt kdom) (map pt idom)) s (at_point dst (pt r)))) /\
  (forall ad, (forall r, In r odom -> ad <> by_ + r) -> vals dev' ad = vals dev ad) /\
  idxs dev' = idxs dev.
Proof.
  unfold coo_cuda. destruct (nil_dec kdom) as [Ek|Hn].
  { rewrite Ek. intros ->. split; [|split; [reflexivity|reflexivity]]. intros r Hr. rewrite (Dy _ Hr). reflexivity. }
  rewrite (coo_call_some _ _ _ _ _ _ _ Hn).
  destruct (kdom_shape Hn) as (a & b & Hab & Eshape & Elo & Evol).
  assert (Hin : forall k, 0 <= k < b - a + 1 -> In (a + k) kdom) by (intros k; apply in_kdom; exact Eshape).
  intros [Hi Hv]. unfold makeCuSparseCOO, makeShiftedCuSparseDnVec, ptr in Hv.
  assert (Hks : forall r, coo_row_ks dev (mk_coo_descr (dom_hi odom + 1) (dom_hi idom + 1) (dom_volume kdom) (brow + dom_lo kdom) (bcol + dom_lo kdom) (bval + dom_lo kdom)) r
     = filter (fun k => row (a + k) =? r) (zrange 0 (b - a))).
  { intros r. unfold coo_row_ks. cbn [cd_row cd_nnz]. rewrite Elo, Evol. replace (b - a + 1 - 1) with (b - a) by lia.
    apply filter_ext_in2. intros k Hk. apply in_zrange in Hk. replace (brow + a + k) with (brow + (a + k)) by lia.
    rewrite (Drow _ (Hin k ltac:(lia))). reflexivity. }
  assert (Hprod : forall k, 0 <= k <= b - a ->
     product exact dev (bcol + dom_lo kdom) (bval + dom_lo kdom) (bx + dom_lo idom - dom_lo idom) k =
     Some (lift2 Rmult (co_entry m (pt (a + k))) (s (at_point src (pt (col (a + k))))))).
  { intros k Hk. unfold product. assert (I1 := Hin k ltac:(lia)). rewrite Elo.
    replace (bcol + a + k) with (bcol + (a + k)) by lia. replace (bval + a + k) with (bval + (a + k)) by lia.
    rewrite (Dcol _ I1), (Dval _ I1). replace (bx + dom_lo idom - dom_lo idom + col (a + k)) with (bx + col (a + k)) by lia.
    rewrite (Dx _ (Hin_i _ I1)). reflexivity. }
  assert (Hmap : forall r, map (fun k => lift2 Rmult (co_entry m (pt (a + k))) (s (at_point src (pt (col (a + k)))))) (filter (fun k => row (a + k) =? r) (zrange 0 (b - a)))
     = map (fun k => lift2 Rmult (co_entry m (pt k)) (s (at_point src (pt (col k))))) (filter (fun k => row k =? r) kdom)).
  { intros r. rewrite Eshape. replace (zrange a b) with (map (fun z => z + a) (zrange 0 (b - a))) by (rewrite zrange_shift; f_equal; lia).
    rewrite filter_map_comm, map_map.
    replace (filter (fun x => row (x + a) =? r) (zrange 0 (b - a))) with (filter (fun x => row (a + x) =? r) (zrange 0 (b - a)))
      by (apply filter_ext; intros k; rewrite (Z.add_comm a k); reflexivity).
    apply map_ext. intros k. rewrite (Z.add_comm k a). reflexivity. }
  split; [|split].
  - intros r Hr. specialize (Hv (by_ + r)). cbn [dn_ptr cd_rows cd_col cd_val] in Hv.
    replace (by_ + r - (by_ + dom_lo odom - dom_lo odom)) with r in Hv by lia.
    rewrite (cpu_coo _ Hr). rewrite Hks in Hv. destruct Hv as [Hv1 Hv2].
    assert (Hrange : 0 <= r < dom_hi odom + 1) by (pose proof (increasing_hi _ Hinc_o Hr); pose proof (Hpos_o _ Hr); lia).
    destruct (filter (fun k => row (a + k) =? r) (zrange 0 (b - a))) as [|k0' kl] eqn:Ef.
    + rewrite Hv2 by (intros [_ C]; congruence). rewrite (Dy _ Hr). f_equal. unfold row_sum. rewrite <- Hmap, Ef. cbn. symmetry. apply oplus_0_r.
    + rewrite <- Ef in Hv1. destruct (Hv1 Hrange) as [yv [sm [Ey [Hred ->]]]]; [rewrite Ef; discriminate|].
      rewrite (Dy _ Hr) in Ey. injection Ey as <-. f_equal. cbn [exact aadd]. f_equal.
      rewrite (reduces_to_exact Hred). unfold row_sum. rewrite <- Hmap. f_equal.
      apply somes_all. intros k Hk. apply filter_In in Hk. destruct Hk as [Hk _]. apply in_zrange in Hk. apply Hprod. lia.
  - intros ad Had. specialize (Hv ad). cbn [dn_ptr cd_rows cd_col cd_val] in Hv.
    replace (ad - (by_ + dom_lo odom - dom_lo odom)) with (ad - by_) in Hv by lia. apply Hv. rewrite Hks. intros [_ C].
    destruct (filter (fun k => row (a + k) =? ad - by_) (zrange 0 (b - a))) as [|k l] eqn:Ef; [congruence|].
    assert (Hk : In k (filter (fun k => row (a + k) =? ad - by_) (zrange 0 (b - a)))) by (rewrite Ef; left; reflexivity).
    apply filter_In in Hk. destruct Hk as [Hk E]. apply in_zrange in Hk. apply Z.eqb_eq in E.
    apply (Had (row (a + k))); [apply Hin_o; apply Hin; lia|lia].
  - exact Hi.
Qed.
End Coo.

(** ** C46.  The local index-pointer array. *)
(** writes of one thread never disturb another: the array after any order of the threads *)
Lemma convert_get rows lo rowptr order : 0 < rows -> forall buf j,
  fold_left (convert_thread rows lo rowptr) order buf j =
  if existsb (fun idx => (idx =? j) && (idx <? rows)) order && negb (j =? rows) then Some (fst (rowptr (j + lo)) - fst (rowptr lo))
  else if existsb (fun idx => idx =? 0) order && (j =? rows) then Some (snd (rowptr (rows - 1 + lo)) + 1 - fst (rowptr lo))
  else buf j.
Proof.
  intros Hr. induction order as [|i order IH]; intros buf j; [cbn; destruct (j =? rows); reflexivity|].
  cbn [fold_left existsb]. rewrite IH. unfold convert_thread, upd_buf.
  destruct (existsb (fun idx => (idx =? j) && (idx <? rows)) order) eqn:E1; destruct (existsb (fun idx => idx =? 0) order) eqn:E2;
    destruct (j =? rows) eqn:E3; rewrite ?orb_true_r, ?orb_false_r; cbn [andb negb]; try reflexivity;
    destruct (i >=? rows) eqn:E4; destruct (i =? 0) eqn:E5; destruct (i =? j) eqn:E6; destruct (j =? i) eqn:E7; destruct (i <? rows) eqn:E8; cbn [andb];
    rewrite ?E3, ?E7; try reflexivity; try lia; apply Z.eqb_eq in E6; rewrite E6; reflexivity.
Qed.

(** For every thread order: entry [r] is the start of row [lo + r] relative to the first row, the entry after the last
    is the number of stored entries, nothing else is written; row [lo + r] is described exactly iff the next row
    starts right after it. *)
Theorem C46_indptr : forall (order : list Z) (rows lo : Z) (rowptr : Z -> Z * Z),
  0 < rows -> Permutation order (thread_ids (get_num_blocks_1d rows)) ->
  let indptr := convert_launch order rows lo rowptr in
  let first := fst (rowptr lo) in
  (forall r, 0 <= r < rows -> indptr r = Some (fst (rowptr (lo + r)) - first)) /\
  indptr rows = Some (snd (rowptr (lo + rows - 1)) + 1 - first) /\
  (forall j, ~ 0 <= j <= rows -> indptr j = None) /\
  (forall r, 0 <= r < rows ->
     ((exists a b, indptr r = Some a /\ indptr (r + 1) = Some b /\
        first + a = fst (rowptr (lo + r)) /\ first + b - 1 = snd (rowptr (lo + r))) <->
      (r = rows - 1 \/ fst (rowptr (lo + r + 1)) = snd (rowptr (lo + r)) + 1))).
Proof.
  intros order rows lo rowptr Hr Hp indptr first.
  assert (Hin : forall i, In i order <-> 0 <= i <= get_num_blocks_1d rows * THREADS_PER_BLOCK - 1).
  { intros i. assert (Hb : 0 <= get_num_blocks_1d rows) by (unfold get_num_blocks_1d, THREADS_PER_BLOCK; apply Z.div_pos; lia).
    split; intros H.
    - apply (Permutation_in _ Hp) in H. rewrite thread_ids_range in H by exact Hb. apply in_zrange in H. exact H.
    - apply (Permutation_in _ (Permutation_sym Hp)). rewrite thread_ids_range by exact Hb. apply in_zrange. exact H. }
  assert (Hcov : rows <= get_num_blocks_1d rows * THREADS_PER_BLOCK).
  { unfold get_num_blocks_1d, THREADS_PER_BLOCK. pose proof (Z.div_mod (rows + 128 - 1) 128 ltac:(lia)). pose proof (Z.mod_pos_bound (rows + 128 - 1) 128 ltac:(lia)). lia. }
  assert (H0 : existsb (fun idx => idx =? 0) order = true) by (apply existsb_exists; exists 0; split; [apply Hin; lia|reflexivity]).
  assert (G1 : forall r, 0 <= r < rows -> indptr r = Some (fst (rowptr (lo + r)) - first)).
  { intros r Hrr. unfold indptr, convert_launch. rewrite convert_get by exact Hr.
    assert (E : existsb (fun idx => (idx =? r) && (idx <? rows)) order = true).
    { apply existsb_exists. exists r. split; [apply Hin; lia|]. rewrite Z.eqb_refl. apply Z.ltb_lt. lia. }
    rewrite E. replace (r =? rows) with false by (symmetry; apply Z.eqb_neq; lia). cbn [andb negb]. rewrite (Z.add_comm r lo). reflexivity. }
  assert (G2 : indptr rows = Some (snd (rowptr (lo + rows - 1)) + 1 - first)).
  { unfold indptr, convert_launch. rewrite convert_get by exact Hr. rewrite Z.eqb_refl, H0. cbn [negb]. rewrite andb_false_r. cbn [andb].
    replace (rows - 1 + lo) with (lo + rows - 1) by lia. reflexivity. }
  split; [exact G1|]. split; [exact G2|]. split.
  - intros j Hj. unfold indptr, convert_launch. rewrite convert_get by exact Hr.
    replace (j =? rows) with false by (symmetry; apply Z.eqb_neq; lia). rewrite andb_false_r.
    destruct (existsb (fun idx => (idx =? j) && (idx <? rows)) order) eqn:E; [|reflexivity].
    apply existsb_exists in E. destruct E as [i [Hi E]]. apply Hin in Hi. apply andb_true_iff in E. destruct E as [E1 E2].
    apply Z.eqb_eq in E1. apply Z.ltb_lt in E2. lia.
  - intros r Hrr. destruct (Z.eq_dec r (rows - 1)) as [->|Hne].
    + split; [intros _; left; reflexivity|]. intros _. exists (fst (rowptr (lo + (rows - 1))) - first), (snd (rowptr (lo + rows - 1)) + 1 - first).
      split; [apply G1; lia|]. split; [replace (rows - 1 + 1) with rows by lia; exact G2|]. split; [lia|].
      replace (lo + (rows - 1)) with (lo + rows - 1) by lia. lia.
    + rewrite (G1 r Hrr), (G1 (r + 1) ltac:(lia)). rewrite Z.add_assoc. split.
      * intros (a & b & Ea & Eb & E1 & E2). right. assert (b = fst (rowptr (lo + r + 1)) - first) by congruence. lia.
      * intros [C|E]; [lia|]. eexists; eexists. split; [reflexivity|]. split; [reflexivity|]. lia.
Qed.

(** ** CSR *)
Section Csr.
Variables (m : csr T) (dst src : pvec) (s : store loc T).
Variables (l h : Z) (kdom idom : list Z) (rp : Z -> Z * Z) (col : Z -> Z).
Notation odom := (zrange l h).
Variables (by_ bcol bval bx : Z) (dev : device T) (order : list Z).
(** the row pointers of the piece: consecutive intervals, possibly empty *)
Hypothesis Hlh : l <= h.
Hypothesis Hrp : forall r, l <= r <= h -> cs_rowptr m (pt r) = mk_rect (pt (fst (rp r))) (pt (snd (rp r))).
Hypothesis Hlen : forall r, l <= r <= h -> fst (rp r) <= snd (rp r) + 1.
Hypothesis Hnext : forall r, l <= r < h -> fst (rp (r + 1)) = snd (rp r) + 1.
Hypothesis Hk : kdom = zrange (fst (rp l)) (snd (rp h)).
Hypothesis Hcol : forall k, In k kdom -> cs_col m (pt k) = pt (col k).
Hypothesis Hin_i : forall k, In k kdom -> In (col k) idom.
Hypothesis Hsep : separate dst src.

Lemma rp_mono r r' : l <= r -> r < r' -> r' <= h -> snd (rp r) < fst (rp r').
Proof.
  intros H1 H2 H3. assert (G : forall n, r + 1 + Z.of_nat n <= h -> snd (rp r) < fst (rp (r + 1 + Z.of_nat n))).
  { induction n as [|n IH]; intros Hn.
    - replace (r + 1 + Z.of_nat 0) with (r + 1) by lia. rewrite Hnext by lia. lia.
    - specialize (IH ltac:(lia)). replace (r + 1 + Z.of_nat (S n)) with (r + 1 + Z.of_nat n + 1) by lia.
      rewrite Hnext by lia. pose proof (@Hlen (r + 1 + Z.of_nat n) ltac:(lia)). lia. }
  specialize (G (Z.to_nat (r' - r - 1))). replace (r + 1 + Z.of_nat (Z.to_nat (r' - r - 1))) with r' in G by lia. apply G. exact H3.
Qed.
Lemma rp_within r : l <= r <= h -> fst (rp l) <= fst (rp r) /\ snd (rp r) <= snd (rp h).
Proof.
  intros H. split.
  - destruct (Z.eq_dec r l) as [->|N]; [lia|]. pose proof (@rp_mono l r ltac:(lia) ltac:(lia) ltac:(lia)). pose proof (@Hlen l ltac:(lia)). lia.
  - destruct (Z.eq_dec r h) as [->|N]; [lia|]. pose proof (@rp_mono r h ltac:(lia) ltac:(lia) ltac:(lia)). pose proof (@Hlen h ltac:(lia)). lia.
Qed.
Lemma rp_contains r k : l <= r <= h -> contains (cs_rowptr m (pt r)) (pt k) = (fst (rp r) <=? k) && (k <=? snd (rp r)).
Proof. intros H. rewrite Hrp by exact H. unfold contains, pt. cbn. apply andb_true_r. Qed.
(** every stored entry of the piece is in one of its rows *)
Lemma rp_cover k : In k kdom -> exists r, l <= r <= h /\ fst (rp r) <= k <= snd (rp r).
Proof.
  rewrite Hk. intros H. apply in_zrange in H.
  assert (G : forall n, l + Z.of_nat n <= h -> k <= snd (rp (l + Z.of_nat n)) -> exists r, l <= r <= h /\ fst (rp r) <= k <= snd (rp r)).
  { induction n as [|n IH]; intros Hn Hs.
    - exists l. split; [lia|]. replace (l + Z.of_nat 0) with l in Hs by lia. lia.
    - destruct (Z_le_gt_dec k (snd (rp (l + Z.of_nat n)))) as [Hle|Hgt]; [apply IH; [lia|exact Hle]|].
      exists (l + Z.of_nat (S n)). split; [lia|]. replace (l + Z.of_nat (S n)) with (l + Z.of_nat n + 1) in * by lia. rewrite Hnext by lia. lia. }
  apply (G (Z.to_nat (h - l))); [lia|]. replace (l + Z.of_nat (Z.to_nat (h - l))) with h by lia. lia.
Qed.
Lemma find_row k r : In k kdom -> l <= r <= h -> fst (rp r) <= k <= snd (rp r) -> csr_find_row (cs_rowptr m) (map pt odom) (pt k) = Some (pt r).
Proof.
  intros Hin Hr Hkr. assert (S := csr_find_row_spec (cs_rowptr m) (map pt odom) (pt k)).
  destruct (csr_find_row (cs_rowptr m) (map pt odom) (pt k)) as [q|] eqn:E.
  - apply csr_find_row_some in E. destruct E as [Hq Hc]. apply in_map_iff in Hq. destruct Hq as [r' [<- Hr']]. apply in_zrange in Hr'.
    rewrite rp_contains in Hc by exact Hr'. apply andb_true_iff in Hc. destruct Hc as [C1 C2]. apply Z.leb_le in C1. apply Z.leb_le in C2.
    destruct (Z.lt_trichotomy r r') as [L|[->|L]]; [|reflexivity|].
    + pose proof (@rp_mono r r' ltac:(lia) L ltac:(lia)). lia.
    + pose proof (@rp_mono r' r ltac:(lia) L ltac:(lia)). lia.
  - exfalso. specialize (S (pt r)). rewrite rp_contains in S by exact Hr. assert (In (pt r) (map pt odom)) as Hi by (apply in_map, in_zrange; exact Hr).
    apply S in Hi. apply andb_false_iff in Hi. destruct Hi as [C|C]; apply Z.leb_gt in C; lia.
Qed.
Lemma filter_interval a b c d : a <= c -> d <= b -> filter (fun k => (c <=? k) && (k <=? d)) (zrange a b) = zrange c d.
Proof.
  intros H1 H2. destruct (Z_le_gt_dec c d) as [Hle|Hgt].
  - rewrite (zrange_app (a:=a) (b:=c-1) (c:=b)) by lia. replace (c - 1 + 1) with c by lia.
    rewrite (zrange_app (a:=c) (b:=d) (c:=b)) by lia. rewrite !filter_app.
    rewrite filter_none by (intros k K; apply in_zrange in K; apply andb_false_iff; left; apply Z.leb_gt; lia).
    rewrite filter_all by (intros k K; apply in_zrange in K; apply andb_true_iff; split; apply Z.leb_le; lia).
    rewrite filter_none by (intros k K; apply in_zrange in K; apply andb_false_iff; right; apply Z.leb_gt; lia).
    cbn [app]. apply app_nil_r.
  - rewrite (zrange_nil (a:=c) (b:=d)) by lia. apply filter_none. intros k K. destruct (Z_le_gt_dec c k).
    + apply andb_false_iff; right; apply Z.leb_gt; lia.
    + apply andb_false_iff; left; apply Z.leb_gt; lia.
Qed.

(** what the CPU task does *)
Lemma cpu_csr : exists t, csr_task exact m dst src (map pt odom) (map pt idom) (map pt kdom) = Ok t /\
  forall r, l <= r <= h -> run t s (at_point dst (pt r)) =
    lift2 Rplus (s (at_point dst (pt r)))
      (row_sum (fun k => cs_entry m (pt k)) col (fun c => s (at_point src (pt c))) (zrange (fst (rp r)) (snd (rp r)))).
Proof.
  eexists. split.
  { apply csr_task_entries. intros kp Hin. apply in_map_iff in Hin. destruct Hin as [k [<- Hin]].
    destruct (rp_cover _ Hin) as [r [Hr Hkr]]. rewrite (@find_row k r Hin Hr Hkr). discriminate. }
  intros r Hr. rewrite run_accumulate by exact Hsep. rewrite accumulate_row_exact. f_equal. unfold row_sum. f_equal.
  rewrite <- (@filter_interval (fst (rp l)) (snd (rp h)) (fst (rp r)) (snd (rp r))); [|apply rp_within; exact Hr|apply rp_within; exact Hr].
  rewrite <- Hk. unfold csr_entries. rewrite flat_map_map.
  assert (G : forall ks, incl ks kdom ->
    map (fun t => let '(_, c, e) := t in lift2 Rmult e (s (at_point src c)))
      (filter (fun t : point * point * T => if point_eq_dec (fst (fst t)) (pt r) then true else false)
        (flat_map (fun k => match csr_find_row (cs_rowptr m) (map pt odom) (pt k) with
           | Some row => if mem (cs_col m (pt k)) (map pt idom) && mem row (map pt odom) then [(row, cs_col m (pt k), cs_entry m (pt k))] else []
           | None => [] end) ks)) =
    map (fun k => lift2 Rmult (cs_entry m (pt k)) (s (at_point src (pt (col k))))) (filter (fun k => (fst (rp r) <=? k) && (k <=? snd (rp r))) ks)).
  { induction ks as [|k ks IH]; intros Hks; [reflexivity|]. cbn [flat_map filter].
    assert (Hkk : In k kdom) by (apply Hks; left; reflexivity). assert (Hks' : incl ks kdom) by (intros x Hx; apply Hks; right; exact Hx).
    destruct (rp_cover _ Hkk) as [r' [Hr' Hkr]]. rewrite (@find_row k r' Hkk Hr' Hkr). rewrite (Hcol _ Hkk).
    assert (E1 : mem (pt (col k)) (map pt idom) = true) by (apply mem_pt; auto).
    assert (E2 : mem (pt r') (map pt odom) = true) by (apply mem_pt, in_zrange; exact Hr').
    rewrite E1, E2. cbn [andb app filter fst snd].
    destruct (point_eq_dec (pt r') (pt r)) as [E|E].
    - injection E as ->. replace ((fst (rp r) <=? k) && (k <=? snd (rp r))) with true
        by (symmetry; apply andb_true_iff; split; apply Z.leb_le; lia). cbn [map]. f_equal. apply IH. exact Hks'.
    - destruct ((fst (rp r) <=? k) && (k <=? snd (rp r))) eqn:E3; [|apply IH; exact Hks'].
      exfalso. apply andb_true_iff in E3. destruct E3 as [C1 C2]. apply Z.leb_le in C1. apply Z.leb_le in C2. apply E.
      destruct (Z.lt_trichotomy r r') as [L|[->|L]]; [|reflexivity|].
      + pose proof (@rp_mono r r' ltac:(lia) L ltac:(lia)). lia.
      + pose proof (@rp_mono r' r ltac:(lia) L ltac:(lia)). lia. }
  apply G. apply incl_refl.
Qed.

(** the device *)
Hypothesis Hinc_i : increasing idom.
Hypothesis Hpos_i : forall c, In c idom -> 0 <= c.
Hypothesis Dcol : holds (idxs dev) bcol kdom col.
Hypothesis Dval : holds (vals dev) bval kdom (fun k => cs_entry m (pt k)).
Hypothesis Dx : holds (vals dev) bx idom (fun c => s (at_point src (pt c))).
Hypothesis Dy : holds (vals dev) by_ odom (fun r => s (at_point dst (pt r))).
Hypothesis Hord : Permutation order (thread_ids (get_num_blocks_1d (h - l + 1))).

Definition csr_d := makeCuSparseCSR order (h - l + 1) (dom_hi idom + 1) odom rp kdom bcol bval.
Lemma csr_call_eq : csr_call order odom kdom idom rp by_ bcol bval bx =
  Ok (Some (csr_d, makeShiftedCuSparseDnVec idom (dom_hi idom + 1) bx, makeCuSparseDnVec odom by_)).
Proof.
  unfold csr_call, dom_dense. rewrite zrange_volume, zrange_hi, zrange_lo by lia. rewrite Z.eqb_refl. cbn [oassert].
  replace (h - l + 1 =? 0) with false by (symmetry; apply Z.eqb_neq; lia). reflexivity.
Qed.
Lemma indptr_row r : 0 <= r <= h - l -> sd_indptr csr_d r = Some (fst (rp (l + r)) - fst (rp l)) /\
  sd_indptr csr_d (r + 1) = Some (snd (rp (l + r)) + 1 - fst (rp l)).
Proof.
  intros Hr. unfold csr_d, makeCuSparseCSR. cbn [sd_indptr]. rewrite zrange_lo by exact Hlh.
  destruct (@C46_indptr order (h - l + 1) l rp ltac:(lia) Hord) as (G1 & G2 & _ & _).
  split; [apply G1; lia|]. destruct (Z.eq_dec r (h - l)) as [->|N].
  - rewrite G2. replace (l + (h - l + 1) - 1) with (l + (h - l)) by lia. reflexivity.
  - rewrite G1 by lia. replace (l + (r + 1)) with (l + r + 1) by lia. rewrite Hnext by lia. reflexivity.
Qed.
Lemma klo : kdom <> [] -> dom_lo kdom = fst (rp l).
Proof.
  intros Hn. rewrite Hk in Hn |- *. apply zrange_lo. destruct (Z_le_gt_dec (fst (rp l)) (snd (rp h))); [lia|].
  exfalso. apply Hn. apply zrange_nil. lia.
Qed.
Lemma row_in r k : 0 <= r <= h - l -> fst (rp (l + r)) - fst (rp l) <= k < snd (rp (l + r)) + 1 - fst (rp l) ->
  In (fst (rp l) + k) kdom /\ dom_lo kdom = fst (rp l).
Proof.
  intros Hr Hkk. assert (Hi : In (fst (rp l) + k) kdom).
  { rewrite Hk. apply in_zrange. destruct (@rp_within (l + r) ltac:(lia)). lia. }
  split; [exact Hi|]. apply klo. intros E. rewrite E in Hi. destruct Hi.
Qed.
Lemma csr_product r k : 0 <= r <= h - l -> fst (rp (l + r)) - fst (rp l) <= k < snd (rp (l + r)) + 1 - fst (rp l) ->
  product exact dev (bcol + dom_lo kdom) (bval + dom_lo kdom) (bx + dom_lo idom - dom_lo idom) k =
  Some (lift2 Rmult (cs_entry m (pt (k + fst (rp l)))) (s (at_point src (pt (col (k + fst (rp l))))))).
Proof.
  intros Hr Hkk. destruct (@row_in r k Hr Hkk) as [Hi Elo]. unfold product. rewrite Elo.
  rewrite (Z.add_comm (fst (rp l)) k) in Hi.
  replace (bcol + fst (rp l) + k) with (bcol + (k + fst (rp l))) by lia. replace (bval + fst (rp l) + k) with (bval + (k + fst (rp l))) by lia.
  rewrite (Dcol _ Hi), (Dval _ Hi). replace (bx + dom_lo idom - dom_lo idom + col (k + fst (rp l))) with (bx + col (k + fst (rp l))) by lia.
  rewrite (Dx _ (Hin_i _ Hi)). reflexivity.
Qed.

Lemma gpu_csr_legal : csr_cuda_legal order odom kdom idom rp by_ bcol bval bx dev.
Proof.
  unfold csr_cuda_legal. rewrite csr_call_eq. unfold spmv_csr_legal.
  split; [reflexivity|]. split; [cbn; apply zrange_volume; lia|].
  split. { destruct (@indptr_row 0 ltac:(lia)) as [E _]. rewrite E. f_equal. replace (l + 0) with l by lia. lia. }
  split. { change (sd_rows csr_d) with (h - l + 1). destruct (@indptr_row (h - l) ltac:(lia)) as [_ E]. rewrite E. f_equal.
    change (sd_nnz csr_d) with (dom_volume kdom). rewrite Hk, zrange_volume. { replace (l + (h - l)) with h by lia. lia. }
    destruct (@rp_within h ltac:(lia)). pose proof (@Hlen h ltac:(lia)). lia. }
  change (sd_rows csr_d) with (h - l + 1). intros r Hr. destruct (@indptr_row r ltac:(lia)) as [E1 E2].
  assert (Hrr : In (l + r) odom) by (apply in_zrange; lia).
  exists (fst (rp (l + r)) - fst (rp l)), (snd (rp (l + r)) + 1 - fst (rp l)), (s (at_point dst (pt (l + r)))).
  split; [exact E1|]. split; [exact E2|]. split; [pose proof (@Hlen (l + r) ltac:(lia)); lia|].
  split. { cbn [dn_ptr makeCuSparseDnVec ptr]. unfold ptr. rewrite zrange_lo by exact Hlh. replace (by_ + l + r) with (by_ + (l + r)) by lia. apply (Dy _ Hrr). }
  intros k Hkk. destruct (@row_in r k ltac:(lia) Hkk) as [Hi Elo].
  cbn [csr_d makeCuSparseCSR sd_col sd_val sd_cols dn_ptr makeShiftedCuSparseDnVec]. unfold ptr, csr_d, makeCuSparseCSR. cbn [sd_cols sd_col sd_val]. unfold ptr. rewrite Elo.
  exists (col (fst (rp l) + k)), (cs_entry m (pt (fst (rp l) + k))), (s (at_point src (pt (col (fst (rp l) + k))))).
  replace (bcol + fst (rp l) + k) with (bcol + (fst (rp l) + k)) by lia. replace (bval + fst (rp l) + k) with (bval + (fst (rp l) + k)) by lia.
  rewrite (Dcol _ Hi), (Dval _ Hi). replace (bx + dom_lo idom - dom_lo idom + col (fst (rp l) + k)) with (bx + col (fst (rp l) + k)) by lia.
  rewrite (Dx _ (Hin_i _ Hi)). pose proof (increasing_hi _ Hinc_i (Hin_i _ Hi)). pose proof (Hpos_i _ (Hin_i _ Hi)).
  repeat split; lia.
Qed.

Lemma gpu_csr_effect dev' : csr_cuda exact order odom kdom idom rp by_ bcol bval bx dev dev' ->
  (forall r, l <= r <= h -> vals dev' (by_ + r) =
     Some (row_sum (fun k => cs_entry m (pt k)) col (fun c => s (at_point src (pt c))) (zrange (fst (rp r)) (snd (rp r))))) /\
  (forall ad, (forall r, l <= r <= h -> ad <> by_ + r) -> vals dev' ad = vals dev ad) /\
  idxs dev' = idxs dev.
Proof.
  unfold csr_cuda. rewrite csr_call_eq. intros [Hi Hv].
  cbn [dn_ptr makeCuSparseDnVec] in Hv. unfold ptr in Hv. rewrite zrange_lo in Hv by exact Hlh. change (sd_rows csr_d) with (h - l + 1) in Hv.
  split; [|split; [|exact Hi]].
  - intros r Hr. destruct (Hv (by_ + r)) as [H1 _]. clear Hv. replace (by_ + r - (by_ + l)) with (r - l) in H1 by lia.
    destruct (H1 ltac:(lia)) as (yv & sm & _ & Hred & ->). f_equal. rewrite (reduces_to_exact Hred). unfold row_sum. f_equal.
    unfold csr_row_ks. destruct (@indptr_row (r - l) ltac:(lia)) as [E1 E2]. rewrite E1, E2. replace (l + (r - l)) with r by lia.
    replace (zrange (fst (rp r)) (snd (rp r))) with (map (fun z => z + fst (rp l)) (zrange (fst (rp r) - fst (rp l)) (snd (rp r) + 1 - fst (rp l) - 1)))
      by (rewrite zrange_shift; f_equal; lia).
    rewrite map_map. apply somes_all. intros k Hkk. apply in_zrange in Hkk.
    apply (@csr_product (r - l)); [lia|]. replace (l + (r - l)) with r by lia. lia.
  - intros ad Had. destruct (Hv ad) as [_ H2]. apply H2. intros C. apply (Had (ad - by_)); lia.
Qed.
End Csr.

(** ** C45.  What it takes to run a piece of a one-dimensional COO product on the GPU.
    [coo_on_gpu]: a destination piece [odom], the stored entries [kdom] whose rows it owns, the source points [idom]
    available to it, and device instances holding them. *)
Record coo_on_gpu (m : coo T) (dst src : pvec) (s : store loc T) (odom kdom idom : list Z) (row col : Z -> Z)
       (by_ brow bcol bval bx : Z) (dev : device T) : Prop := mk_coo_on_gpu {
  cg_rows : forall k, In k kdom -> co_row m (pt k) = pt (row k) /\ In (row k) odom;
  cg_cols : forall k, In k kdom -> co_col m (pt k) = pt (col k) /\ In (col k) idom;
  cg_order : increasing odom /\ increasing kdom /\ increasing idom;
  cg_pos : (forall r, In r odom -> 0 <= r) /\ (forall c, In c idom -> 0 <= c);
  cg_row : holds (idxs dev) brow kdom row;
  cg_col : holds (idxs dev) bcol kdom col;
  cg_val : holds (vals dev) bval kdom (fun k => co_entry m (pt k));
  cg_src : holds (vals dev) bx idom (fun c => s (at_point src (pt c)));
  cg_dst : holds (vals dev) by_ odom (fun r => s (at_point dst (pt r)));
  cg_sep : separate dst src }.
Definition row_sorted (row : Z -> Z) (kdom : list Z) : Prop := forall k, In k kdom -> In (k + 1) kdom -> row k <= row (k + 1).

(** COO, positive half: when the stored entries of the piece are contiguous and sorted by row, the cuSPARSE call is
    legal and leaves in every destination element exactly what the CPU task leaves there; all other memory keeps its
    contents. *)
Theorem C45_coo_gpu_equals_cpu : forall m dst src s odom kdom idom row col by_ brow bcol bval bx dev,
  coo_on_gpu m dst src s odom kdom idom row col by_ brow bcol bval bx dev ->
  contiguous kdom -> row_sorted row kdom ->
  coo_cuda_legal odom kdom idom by_ brow bcol bval bx dev /\
  forall dev', coo_cuda exact odom kdom idom by_ brow bcol bval bx dev dev' ->
    (forall r, In r odom -> vals dev' (by_ + r) =
       Some (run (coo_task exact m dst src (map pt odom) (map pt kdom) (map pt idom)) s (at_point dst (pt r)))) /\
    (forall ad, (forall r, In r odom -> ad <> by_ + r) -> vals dev' ad = vals dev ad).
Proof.
  intros m dst src s odom kdom idom row col by_ brow bcol bval bx dev [H1 H2 [O1 [O2 O3]] [P1 P2] D1 D2 D3 D4 D5 Hs] Hc Hso.
  split.
  - apply (@gpu_coo_legal m dst src s odom kdom idom row col by_ brow bcol bval bx dev); auto; intros k Hk; apply H1 || apply H2; exact Hk.
  - intros dev' Hd.
    destruct (@gpu_coo_effect m dst src s odom kdom idom row col by_ brow bcol bval bx dev
       (fun k Hk => proj1 (H1 k Hk)) (fun k Hk => proj1 (H2 k Hk)) (fun k Hk => proj2 (H1 k Hk)) (fun k Hk => proj2 (H2 k Hk))
       Hs O1 P1 D1 D2 D3 D4 D5 Hc Hso dev' Hd) as (E1 & E2 & _).
    split; assumption.
Qed.

Lemma incl_sorted_eq d a : increasing d -> (forall z, a <= z < a + dom_volume d -> In z d) -> d = zrange a (a + dom_volume d - 1).
Proof.
  intros Hi Hin. symmetry. apply (@StronglySorted_perm_unique _ Z.lt); [intros; lia|apply zrange_sorted|exact Hi|].
  apply NoDup_Permutation_bis; [apply NoDup_zrange| |intros z Hz; apply in_zrange in Hz; apply Hin; lia].
  rewrite zrange_length. unfold dom_volume. lia.
Qed.

(** COO, negative half: for a destination piece that is an interval and owns all its stored entries (the preimage
    partition the planner makes), a piece whose entries are NOT contiguous in storage, or not sorted by row, is always
    handed to cuSPARSE as an illegal call (an unowned entry is read in place of an owned one).  [Hrest]: the memory
    between the piece's entries holds the other entries of the matrix, or nothing. *)
Theorem C45_coo_gpu_needs_contiguous_entries : forall m dst src s l h kdom idom row col by_ brow bcol bval bx dev,
  coo_on_gpu m dst src s (zrange l h) kdom idom row col by_ brow bcol bval bx dev ->
  (forall k, ~ In k kdom -> forall r, idxs dev (brow + k) = Some r -> ~ In r (zrange l h)) ->
  coo_cuda_legal (zrange l h) kdom idom by_ brow bcol bval bx dev ->
  contiguous kdom /\ row_sorted row kdom.
Proof.
  intros m dst src s l h kdom idom row col by_ brow bcol bval bx dev [H1 H2 [O1 [O2 O3]] [P1 P2] D1 D2 D3 D4 D5 Hs] Hrest.
  unfold coo_cuda_legal. destruct (nil_dec kdom) as [->|Hn]; [intros _; split; [reflexivity|intros k []]|].
  rewrite (coo_call_some _ _ _ _ _ _ _ Hn). unfold spmv_coo_legal, makeCuSparseCOO, makeShiftedCuSparseDnVec, ptr. cbn [cd_rows cd_cols cd_nnz cd_row cd_col cd_val dn_size dn_ptr].
  intros (_ & _ & Hleg & Hsort).
  assert (Hlo : In (dom_lo kdom) kdom) by (destruct kdom; [congruence|left; reflexivity]).
  assert (Hlh : l <= h) by (pose proof (proj2 (H1 _ Hlo)) as G; apply in_zrange in G; lia).
  rewrite zrange_hi in Hleg by exact Hlh.
  assert (G : forall n, Z.of_nat n < dom_volume kdom -> In (dom_lo kdom + Z.of_nat n) kdom).
  { induction n as [|n IH]; intros Hl; [replace (dom_lo kdom + Z.of_nat 0) with (dom_lo kdom) by lia; exact Hlo|].
    specialize (IH ltac:(lia)). destruct (in_dec Z.eq_dec (dom_lo kdom + Z.of_nat (S n)) kdom) as [Hi|Hi]; [exact Hi|exfalso].
    destruct (Hleg (Z.of_nat (S n)) ltac:(lia)) as (r & c & v & xv & yv & Er & Hr & _).
    replace (brow + dom_lo kdom + Z.of_nat (S n)) with (brow + (dom_lo kdom + Z.of_nat (S n))) in Er by lia.
    pose proof (Hrest _ Hi r Er) as Hno.
    assert (Hlt : r < l) by (destruct (Z_lt_ge_dec r l); [assumption|]; exfalso; apply Hno; apply in_zrange; lia).
    assert (Eprev : idxs dev (brow + dom_lo kdom + Z.of_nat n) = Some (row (dom_lo kdom + Z.of_nat n))).
    { replace (brow + dom_lo kdom + Z.of_nat n) with (brow + (dom_lo kdom + Z.of_nat n)) by lia. apply D1. exact IH. }
    assert (Hle : row (dom_lo kdom + Z.of_nat n) <= r).
    { apply (Hsort (Z.of_nat n)); [lia|lia|exact Eprev|].
      replace (brow + dom_lo kdom + (Z.of_nat n + 1)) with (brow + (dom_lo kdom + Z.of_nat (S n))) by lia. exact Er. }
    pose proof (proj2 (H1 _ IH)) as Hp. apply in_zrange in Hp. lia. }
  assert (E : kdom = zrange (dom_lo kdom) (dom_lo kdom + dom_volume kdom - 1)).
  { apply incl_sorted_eq; [exact O2|]. intros z Hz. specialize (G (Z.to_nat (z - dom_lo kdom))).
    replace (dom_lo kdom + Z.of_nat (Z.to_nat (z - dom_lo kdom))) with z in G by lia. apply G. lia. }
  assert (Hvol : 0 < dom_volume kdom) by (unfold dom_volume; destruct kdom; [congruence|cbn; lia]).
  split.
  - unfold contiguous. replace (dom_hi kdom) with (dom_lo kdom + dom_volume kdom - 1); [exact E|].
    symmetry. rewrite E at 1. apply zrange_hi. lia.
  - intros k Hk1 Hk2. assert (R1 := Hk1). assert (R2 := Hk2). rewrite E in R1, R2. apply in_zrange in R1. apply in_zrange in R2.
    apply (Hsort (k - dom_lo kdom)); [lia|lia| |].
    + replace (brow + dom_lo kdom + (k - dom_lo kdom)) with (brow + k) by lia. apply D1. exact Hk1.
    + replace (brow + dom_lo kdom + (k - dom_lo kdom + 1)) with (brow + (k + 1)) by lia. apply D1. exact Hk2.
Qed.

(** When a whole COO matrix is stored sorted by row, the entries owned by any interval of rows are contiguous. *)
Theorem C45_row_sorted_storage_is_contiguous : forall (row : Z -> Z) n l h,
  (forall k, 0 <= k -> k + 1 < n -> row k <= row (k + 1)) ->
  contiguous (filter (fun k => (l <=? row k) && (row k <=? h)) (zrange 0 (n - 1))).
Proof.
  intros row n l h Hmono. set (d := filter _ _).
  assert (Hm : forall k k', 0 <= k -> k <= k' -> k' < n -> row k <= row k').
  { intros k k' H0 Hle Hlt. replace k' with (k + Z.of_nat (Z.to_nat (k' - k))) in * by lia. remember (Z.to_nat (k' - k)) as j eqn:Ej. clear Ej Hle.
    induction j as [|j IH]; [replace (k + Z.of_nat 0) with k by lia; lia|].
    specialize (IH ltac:(lia)). pose proof (Hmono (k + Z.of_nat j) ltac:(lia) ltac:(lia)).
    replace (k + Z.of_nat (S j)) with (k + Z.of_nat j + 1) by lia. lia. }
  assert (Hd : forall k, In k d <-> 0 <= k < n /\ l <= row k <= h).
  { intros k. unfold d. rewrite filter_In, in_zrange, andb_true_iff, !Z.leb_le. lia. }
  assert (Hi : increasing d) by (apply StronglySorted_filter, zrange_sorted).
  unfold contiguous. destruct (nil_dec d) as [->|Hn]; [reflexivity|].
  assert (Hlo : In (dom_lo d) d) by (destruct d; [congruence|left; reflexivity]).
  assert (Hhi : In (dom_hi d) d) by (apply last_In; exact Hn).
  apply (@StronglySorted_perm_unique _ Z.lt); [intros; lia|exact Hi|apply zrange_sorted|].
  apply NoDup_Permutation; [|apply NoDup_zrange|].
  - unfold d. apply NoDup_filter, NoDup_zrange.
  - intros z. split; intros Hz.
    + apply in_zrange. split; [apply increasing_lo|apply increasing_hi]; assumption.
    + apply in_zrange in Hz. apply Hd in Hlo. apply Hd in Hhi. apply Hd. split; [lia|].
      pose proof (Hm (dom_lo d) z ltac:(lia) ltac:(lia) ltac:(lia)). pose proof (Hm z (dom_hi d) ltac:(lia) ltac:(lia) ltac:(lia)). lia.
Qed.

(** A piece of a one-dimensional CSR product on the GPU: destination rows [l..h], consecutive row-pointer intervals
    [rp], their stored entries [kdom], the source points [idom]. *)
Record csr_on_gpu (m : csr T) (dst src : pvec) (s : store loc T) (l h : Z) (kdom idom : list Z) (rp : Z -> Z * Z) (col : Z -> Z)
       (by_ bcol bval bx : Z) (dev : device T) : Prop := mk_csr_on_gpu {
  sg_rows : l <= h;
  sg_ptr : forall r, l <= r <= h -> cs_rowptr m (pt r) = mk_rect (pt (fst (rp r))) (pt (snd (rp r))) /\ fst (rp r) <= snd (rp r) + 1;
  sg_next : forall r, l <= r < h -> fst (rp (r + 1)) = snd (rp r) + 1;
  sg_kdom : kdom = zrange (fst (rp l)) (snd (rp h));
  sg_cols : forall k, In k kdom -> cs_col m (pt k) = pt (col k) /\ In (col k) idom;
  sg_order : increasing idom;
  sg_pos : forall c, In c idom -> 0 <= c;
  sg_col : holds (idxs dev) bcol kdom col;
  sg_val : holds (vals dev) bval kdom (fun k => cs_entry m (pt k));
  sg_src : holds (vals dev) bx idom (fun c => s (at_point src (pt c)));
  sg_dst : holds (vals dev) by_ (zrange l h) (fun r => s (at_point dst (pt r)));
  sg_sep : separate dst src }.

(** CSR: the call is legal; the GPU leaves the row's product in every destination element, whatever was there, while
    the CPU task adds it to what was there. *)
Theorem C45_csr_gpu_overwrites : forall m dst src s l h kdom idom rp col by_ bcol bval bx dev order,
  csr_on_gpu m dst src s l h kdom idom rp col by_ bcol bval bx dev ->
  Permutation order (thread_ids (get_num_blocks_1d (h - l + 1))) ->
  csr_cuda_legal order (zrange l h) kdom idom rp by_ bcol bval bx dev /\
  exists t, csr_task exact m dst src (map pt (zrange l h)) (map pt idom) (map pt kdom) = Ok t /\
  forall dev', csr_cuda exact order (zrange l h) kdom idom rp by_ bcol bval bx dev dev' ->
    (forall r, l <= r <= h -> exists q, vals dev' (by_ + r) = Some q /\
       q = row_sum (fun k => cs_entry m (pt k)) col (fun c => s (at_point src (pt c))) (zrange (fst (rp r)) (snd (rp r))) /\
       run t s (at_point dst (pt r)) = lift2 Rplus (s (at_point dst (pt r))) q) /\
    (forall ad, (forall r, l <= r <= h -> ad <> by_ + r) -> vals dev' ad = vals dev ad).
Proof.
  intros m dst src s l h kdom idom rp col by_ bcol bval bx dev order [H0 H1 H2 H3 H4 H5 H6 H7 H8 H9 H10 H11] Hord.
  split.
  - apply (@gpu_csr_legal m dst src s l h kdom idom rp col by_ bcol bval bx dev order); auto; intros k Hk; apply H1 || apply H4; exact Hk.
  - destruct (@cpu_csr m dst src s l h kdom idom rp col H0 (fun r Hr => proj1 (H1 r Hr)) (fun r Hr => proj2 (H1 r Hr)) H2 H3
       (fun k Hk => proj1 (H4 k Hk)) (fun k Hk => proj2 (H4 k Hk)) H11) as [t [Et Ht]].
    exists t. split; [exact Et|]. intros dev' Hd.
    destruct (@gpu_csr_effect m src s l h kdom idom rp col by_ bcol bval bx dev order H0
       (fun r Hr => proj2 (H1 r Hr)) H2 H3 (fun k Hk => proj2 (H4 k Hk)) H7 H8 H9 Hord dev' Hd) as (E1 & E2 & _).
    split; [|exact E2]. intros r Hr. eexists. split; [apply E1; exact Hr|]. split; [reflexivity|]. apply Ht. exact Hr.
Qed.

(** So the two agree on a destination element exactly when its former value was zero (for defined values). *)
Theorem C45_csr_agrees_iff_zero : forall m dst src s l h kdom idom rp col by_ bcol bval bx dev order dev' t r (old q : R),
  csr_on_gpu m dst src s l h kdom idom rp col by_ bcol bval bx dev ->
  Permutation order (thread_ids (get_num_blocks_1d (h - l + 1))) ->
  csr_cuda exact order (zrange l h) kdom idom rp by_ bcol bval bx dev dev' ->
  csr_task exact m dst src (map pt (zrange l h)) (map pt idom) (map pt kdom) = Ok t ->
  l <= r <= h -> s (at_point dst (pt r)) = Some old -> vals dev' (by_ + r) = Some (Some q) ->
  (vals dev' (by_ + r) = Some (run t s (at_point dst (pt r))) <-> old = 0%R).
Proof.
  intros m dst src s l h kdom idom rp col by_ bcol bval bx dev order dev' t r old q Hg Hord Hd Ht Hr Ho Hq.
  destruct (C45_csr_gpu_overwrites Hg Hord) as [_ [t' [Et H]]]. rewrite Ht in Et. injection Et as <-.
  destruct (H _ Hd) as [H1 _]. destruct (H1 _ Hr) as (q' & E1 & _ & E2). rewrite Hq in E1. injection E1 as <-.
  rewrite Hq, E2, Ho. cbn [lift2]. split.
  - intros E. injection E as E. lra.
  - intros ->. f_equal. f_equal. lra.
Qed.

(** Two CSR products into the same destination, as the planner issues them for two matrices of one block row: the
    first product is lost on the GPU, whatever the matrices. *)
Theorem C45_csr_second_product_discards_first : forall m1 m2 dst src s s1 l h kd1 kd2 id1 id2 rp1 rp2 c1 c2 by_ b1 b2 b3 b4 bx1 bx2 dev order1 order2 dev1 dev2,
  csr_on_gpu m1 dst src s l h kd1 id1 rp1 c1 by_ b1 b2 bx1 dev ->
  Permutation order1 (thread_ids (get_num_blocks_1d (h - l + 1))) ->
  csr_cuda exact order1 (zrange l h) kd1 id1 rp1 by_ b1 b2 bx1 dev dev1 ->
  csr_on_gpu m2 dst src s1 l h kd2 id2 rp2 c2 by_ b3 b4 bx2 dev1 ->
  Permutation order2 (thread_ids (get_num_blocks_1d (h - l + 1))) ->
  csr_cuda exact order2 (zrange l h) kd2 id2 rp2 by_ b3 b4 bx2 dev1 dev2 ->
  forall r, l <= r <= h -> vals dev2 (by_ + r) =
    Some (row_sum (fun k => cs_entry m2 (pt k)) c2 (fun c => s1 (at_point src (pt c))) (zrange (fst (rp2 r)) (snd (rp2 r)))).
Proof.
  intros m1 m2 dst src s s1 l h kd1 kd2 id1 id2 rp1 rp2 c1 c2 by_ b1 b2 b3 b4 bx1 bx2 dev order1 order2 dev1 dev2 _ _ _ G2 P2 D2 r Hr.
  destruct (C45_csr_gpu_overwrites G2 P2) as [_ [t [_ H]]]. destruct (H _ D2) as [H1 _]. destruct (H1 _ Hr) as (q & E & -> & _). exact E.
Qed.

(** ** Non-vacuity *)
Section Example.
Let v_dst := mk_pvec 0 0 0 0 0.
Let v_src := mk_pvec 0 0 1 0 0.
Let s0 : store loc T := fun x => match x with LVec 0 _ _ => Some 5%R | _ => Some 2%R end.
Lemma sep0 : separate v_dst v_src. Proof. intros p q H. discriminate. Qed.
(** entries at 0.., source at 10.., destination at 20.. *)
Definition ex_vals (y : R) : Z -> option T := fun a => if a =? 0 then Some (Some 3%R) else if a =? 10 then Some (Some 2%R) else if a =? 20 then Some (Some y) else None.
Definition ex_dev (y : R) : device T := mk_device (ex_vals y) (fun a => if (a =? 0) || (a =? 100) then Some 0 else None).
Definition ex_csr : csr T := mk_csr [pt 0] (fun _ => pt 0) (fun _ => Some 3%R) 0 (fun _ => mk_rect (pt 0) (pt 0)).
Definition ex_rp (r : Z) : Z * Z := (0, 0).

Ltac zin := intros z Hz; apply in_zrange in Hz; replace z with 0 by lia; reflexivity.
Example csr_example : csr_on_gpu ex_csr v_dst v_src s0 0 0 (zrange 0 0) (zrange 0 0) ex_rp (fun _ => 0) 20 0 0 10 (ex_dev 5).
Proof.
  constructor; try (intros; cbn; lia); try reflexivity; try exact sep0.
  - intros r Hr. replace r with 0 by lia. split; [reflexivity|cbn; lia].
  - intros k Hk. apply in_zrange in Hk. replace k with 0 by lia. split; [reflexivity|apply in_zrange; lia].
  - apply zrange_sorted.
  - intros c Hc. apply in_zrange in Hc. lia.
  - zin.
  - zin.
  - zin.
  - zin.
Qed.
(** old value 5, row product 6: the GPU leaves 6, the CPU task 11 *)
Example csr_example_run : csr_cuda exact (thread_ids (get_num_blocks_1d 1)) (zrange 0 0) (zrange 0 0) (zrange 0 0) ex_rp 20 0 0 10 (ex_dev 5) (ex_dev (3 * 2)) /\
  exists t, csr_task exact ex_csr v_dst v_src (map pt (zrange 0 0)) (map pt (zrange 0 0)) (map pt (zrange 0 0)) = Ok t /\
    run t s0 (at_point v_dst (pt 0)) = Some (5 + 3 * 2)%R.
Proof.
  split; [|eexists; split; [reflexivity|reflexivity]].
  unfold csr_cuda. rewrite (@csr_call_eq 0 0 (zrange 0 0) (zrange 0 0) ex_rp 20 0 0 10 (thread_ids (get_num_blocks_1d 1))) by lia.
  split; [reflexivity|]. intros a. cbn [dn_ptr makeCuSparseDnVec makeShiftedCuSparseDnVec csr_d makeCuSparseCSR].
  unfold csr_d, makeCuSparseCSR. cbn [sd_rows sd_col sd_val sd_indptr]. unfold ptr. rewrite !zrange_lo by lia. split.
  - intros Ha. assert (a = 20) as -> by lia. exists (Some 5%R), (Some (3 * 2)%R).
    split; [reflexivity|]. split; [|reflexivity]. unfold csr_row_ks. cbn [sd_indptr].
    destruct (@C46_indptr (thread_ids (get_num_blocks_1d 1)) 1 0 ex_rp ltac:(lia) (Permutation_refl _)) as (G1 & G2 & _).
    change (20 - (20 + 0)) with 0. change (0 - 0 + 1) with 1. rewrite (G1 0 ltac:(lia)). change (0 + 1) with 1. rewrite G2. apply red_leaf.
  - intros Ha. assert (N : a <> 20) by lia. cbn [vals ex_dev]. unfold ex_vals. replace (a =? 20) with false by (symmetry; apply Z.eqb_neq; exact N). reflexivity.
Qed.

(** COO: rows 0 and 1 of a 2 x 2 matrix with entries (0,0), (1,0); and the interleaved storage 0,1,0 whose first piece
    has a gap. *)
Definition ex_coo (row : Z -> Z) : coo T := mk_coo (map pt (zrange 0 2)) (fun k => pt (row (hd 0 k))) (fun _ => pt 0) (fun _ => Some 3%R).
Definition ex_dev2 (row : Z -> Z) : device T :=
  mk_device (fun a => if a <? 10 then Some (Some 3%R) else if a =? 10 then Some (Some 2%R) else Some (Some 5%R))
            (fun a => if a <? 100 then Some 0 else Some (row (a - 100))).
Definition sorted_rows (k : Z) : Z := if k <? 2 then 0 else 1.
Definition mixed_rows (k : Z) : Z := if k =? 1 then 1 else 0.
Example coo_example : coo_on_gpu (ex_coo sorted_rows) v_dst v_src s0 (zrange 0 0) (zrange 0 1) (zrange 0 0) sorted_rows (fun _ => 0) 20 100 0 0 10 (ex_dev2 sorted_rows)
  /\ contiguous (zrange 0 1) /\ row_sorted sorted_rows (zrange 0 1).
Proof.
  split; [|split; [reflexivity|]].
  - constructor; try exact sep0.
    + intros k Hk. apply in_zrange in Hk. assert (C : k = 0 \/ k = 1) by lia. destruct C as [-> | ->]; (split; [reflexivity|left; reflexivity]).
    + intros k Hk. split; [reflexivity|left; reflexivity].
    + repeat split; apply zrange_sorted.
    + split; intros z Hz; apply in_zrange in Hz; lia.
    + intros k Hk. apply in_zrange in Hk. assert (C : k = 0 \/ k = 1) by lia. destruct C as [-> | ->]; reflexivity.
    + intros k Hk. apply in_zrange in Hk. assert (C : k = 0 \/ k = 1) by lia. destruct C as [-> | ->]; reflexivity.
    + intros k Hk. apply in_zrange in Hk. assert (C : k = 0 \/ k = 1) by lia. destruct C as [-> | ->]; reflexivity.
    + zin.
    + zin.
  - intros k Hk _. apply in_zrange in Hk. assert (C : k = 0 \/ k = 1) by lia. destruct C as [-> | ->]; cbv; discriminate.
Qed.
(** the negative half is not vacuous: interleaved rows make an illegal call *)
Example coo_gap_example :
  coo_on_gpu (ex_coo mixed_rows) v_dst v_src s0 (zrange 0 0) [0; 2] (zrange 0 0) mixed_rows (fun _ => 0) 20 100 0 0 10 (ex_dev2 mixed_rows) /\
  ~ coo_cuda_legal (zrange 0 0) [0; 2] (zrange 0 0) 20 100 0 0 10 (ex_dev2 mixed_rows).
Proof.
  assert (G : coo_on_gpu (ex_coo mixed_rows) v_dst v_src s0 (zrange 0 0) [0; 2] (zrange 0 0) mixed_rows (fun _ => 0) 20 100 0 0 10 (ex_dev2 mixed_rows)).
  { constructor; try exact sep0.
    + intros k [<-|[<-|[]]]; (split; [reflexivity|left; reflexivity]).
    + intros k [<-|[<-|[]]]; (split; [reflexivity|left; reflexivity]).
    + repeat split; repeat constructor.
    + split; intros z Hz; apply in_zrange in Hz; lia.
    + intros k [<-|[<-|[]]]; reflexivity.
    + intros k [<-|[<-|[]]]; reflexivity.
    + intros k [<-|[<-|[]]]; reflexivity.
    + zin.
    + zin. }
  split; [exact G|]. intros L. unfold coo_cuda_legal, coo_call in L. destruct L as (_ & _ & L & _).
  destruct (L 1 ltac:(cbn; lia)) as (r & c & v & xv & yv & Er & Hr & _). assert (E1 : r = 1) by (vm_compute in Er; congruence). subst r. vm_compute in Hr. destruct Hr as [_ Hr]. discriminate.
Qed.
End Example.
