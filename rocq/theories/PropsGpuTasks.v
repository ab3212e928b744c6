(** PropsGpuTasks: the GPU point tasks as GpuPlanner.v describes them are the cuSPARSE calls of Gpu.v (part of property C75),
    and storage layouts for which the GPU tasks can be used. *)
From Coq Require Import Reals Lra.
From Verif Require Import Base Index Outcome Sched Async Arith Launch Vector PartitionSpec VectorFacts LaunchFacts Builder
  ExactSum Matrix MatrixSpec MatrixFacts MatvecFacts PropsMatrix Pitches PropsPitches Gpu PropsGpu GpuPlanner GpuPlannerFacts.
Local Open Scope Z_scope.
Set Implicit Arguments.

Lemma coord_pt l : map coord (map pt l) = l.
Proof. rewrite map_map. apply map_id. Qed.
Lemma one_dimensional_pt l : one_dimensional (map pt l) = true.
Proof. apply forallb_forall. intros p Hp. apply in_map_iff in Hp. destruct Hp as [z [<- _]]. reflexivity. Qed.
Lemma adjacent_sorted (R : Z -> Z -> bool) (P : Z -> Z -> Prop) l : (forall a b, P a b -> R a b = true) -> StronglySorted P l -> adjacent R l = true.
Proof.
  intros H S. induction S as [|a l Hs IH Hf]; [reflexivity|]. destruct l as [|b l]; [reflexivity|]. cbn [adjacent]. apply andb_true_iff. split; [|exact IH].
  apply H. rewrite Forall_forall in Hf. apply Hf. left. reflexivity.
Qed.
Lemma adjacent_zrange (R : Z -> Z -> bool) (f : Z -> Z) a b : adjacent R (map f (zrange a b)) = true <-> forall k, a <= k -> k + 1 <= b -> R (f k) (f (k + 1)) = true.
Proof.
  remember (Z.to_nat (b - a + 1)) as n eqn:En. revert a En. induction n as [|n IH]; intros a En.
  - rewrite zrange_nil by lia. split; [intros _ k H1 H2; lia|reflexivity].
  - rewrite zrange_cons by lia. destruct n as [|n].
    + rewrite zrange_nil by lia. cbn. split; [intros _ k H1 H2; lia|reflexivity].
    + specialize (IH (a + 1) ltac:(lia)). rewrite zrange_cons in IH |- * by lia. cbn [map adjacent] in *. rewrite andb_true_iff, IH. split.
      * intros [H1 H2] k Hk1 Hk2. destruct (Z.eq_dec k a) as [->|]; [exact H1|apply H2; lia].
      * intros H. split; [apply H; lia|intros k H1 H2; apply H; lia].
Qed.
Lemma gapless_contiguous l : gapless l = true <-> contiguous l.
Proof.
  unfold contiguous. split.
  - destruct l as [|a l]; [reflexivity|]. intros H. cbn [dom_lo hd]. revert a H. induction l as [|b l IH]; intros a H.
    + cbn. rewrite zrange_cons, zrange_nil by lia. reflexivity.
    + cbn [gapless adjacent] in H. unfold gapless in IH. cbn [adjacent] in H. apply andb_true_iff in H. destruct H as [H1 H2]. apply Z.eqb_eq in H1. subst b.
      specialize (IH _ H2). unfold dom_hi in *. change (last (a :: a + 1 :: l) 0) with (last (a + 1 :: l) 0).
      assert (Hle : a + 1 <= last (a + 1 :: l) 0).
      { destruct (Z_le_gt_dec (a + 1) (last (a + 1 :: l) 0)) as [|G]; [assumption|]. rewrite zrange_nil in IH by lia. discriminate. }
      rewrite (zrange_cons (a := a)) by lia. f_equal. exact IH.
  - intros ->. unfold gapless. rewrite <- (map_id (zrange (dom_lo l) (dom_hi l))). apply adjacent_zrange. intros k _ _. apply Z.eqb_eq. lia.
Qed.

(** ** Shapes for which the calls are legal *)
Lemma zero_based_pt d : increasing d -> (forall r, In r d -> 0 <= r) -> zero_based (map pt d) = true.
Proof.
  intros Hd Hp. unfold zero_based. rewrite one_dimensional_pt, coord_pt. cbn [andb]. rewrite andb_true_iff. split.
  - apply (@adjacent_sorted _ Z.lt); [|exact Hd]. intros a b. apply Z.ltb_lt.
  - apply forallb_forall. intros p Hin. apply in_map_iff in Hin. destruct Hin as [z [<- Hin]]. cbn. apply Z.leb_le. apply Hp. exact Hin.
Qed.
Lemma coo_shape V (m : coo V) odom kdom idom (row col : Z -> Z) :
  (forall k, In k kdom -> co_row m (pt k) = pt (row k) /\ In (row k) odom) -> (forall k, In k kdom -> co_col m (pt k) = pt (col k) /\ In (col k) idom) ->
  increasing odom -> increasing idom -> (forall r, In r odom -> 0 <= r) -> (forall c, In c idom -> 0 <= c) ->
  gpu_legal (COO m) (map pt odom) (map pt kdom) (map pt idom) = true <-> contiguous kdom /\ row_sorted row kdom.
Proof.
  intros H1 H2 O1 O3 P1 P2. cbn [gpu_legal].
  unfold coo_gpu_legal. rewrite (zero_based_pt O1 P1), (zero_based_pt O3 P2), one_dimensional_pt, coord_pt. cbn [andb].
  replace (forallb _ (map pt kdom)) with true.
  2:{ symmetry. apply forallb_forall. intros p Hp. apply in_map_iff in Hp. destruct Hp as [k [<- Hk]]. destruct (H1 k Hk) as [-> Hr]. destruct (H2 k Hk) as [-> Hc].
      apply andb_true_iff. split; apply mem_pt; assumption. }
  rewrite andb_true_r.
  assert (E : map (fun kp => coord (co_row m kp)) (map pt kdom) = map row kdom).
  { rewrite map_map. apply map_ext_in. intros k Hk. destruct (H1 k Hk) as [-> _]. reflexivity. }
  rewrite E. rewrite orb_true_iff, andb_true_iff, gapless_contiguous. split.
  - intros [Hn|[Hc Ha]].
    + destruct kdom; [|discriminate]. split; [reflexivity|]. intros k [].
    + split; [exact Hc|]. intros k K1 K2. rewrite Hc in Ha, K1, K2. apply in_zrange in K1. apply in_zrange in K2. apply Z.leb_le.
      apply (proj1 (adjacent_zrange Z.leb row _ _) Ha); lia.
  - intros [Hc Hr]. right. split; [exact Hc|]. rewrite Hc. apply adjacent_zrange. intros k K1 K2. apply Z.leb_le. apply Hr; rewrite Hc; apply in_zrange; lia.
Qed.
Lemma rows_consecutive_zrange V (m : csr V) a b : (forall r, a <= r -> r < b -> row_first m (pt (r + 1)) = row_last m (pt r) + 1) -> rows_consecutive m (map pt (zrange a b)) = true.
Proof.
  remember (Z.to_nat (b - a + 1)) as n eqn:En. revert a En. induction n as [|n IH]; intros a En H.
  - rewrite zrange_nil by lia. reflexivity.
  - rewrite zrange_cons by lia. destruct n as [|n].
    + rewrite zrange_nil by lia. reflexivity.
    + specialize (IH (a + 1) ltac:(lia)). rewrite zrange_cons in IH |- * by lia. cbn [map rows_consecutive] in *. apply andb_true_iff. split.
      * apply Z.eqb_eq. apply H; lia.
      * apply IH. intros r H1 H2. apply H; lia.
Qed.
Lemma csr_shape V (m : csr V) l h kdom idom (rp : Z -> Z * Z) (col : Z -> Z) : l <= h ->
  (forall r, l <= r <= h -> cs_rowptr m (pt r) = mk_rect (pt (fst (rp r))) (pt (snd (rp r))) /\ fst (rp r) <= snd (rp r) + 1) ->
  (forall r, l <= r < h -> fst (rp (r + 1)) = snd (rp r) + 1) -> kdom = zrange (fst (rp l)) (snd (rp h)) ->
  (forall k, In k kdom -> cs_col m (pt k) = pt (col k) /\ In (col k) idom) -> increasing idom -> (forall c, In c idom -> 0 <= c) ->
  gpu_legal (CSR m) (map pt (zrange l h)) (map pt kdom) (map pt idom) = true.
Proof.
  intros H0 H1 H2 H3 H4 H5 H6. cbn [gpu_legal]. rewrite coord_pt.
  assert (Hd : dom_dense (zrange l h) = true) by (unfold dom_dense; rewrite zrange_volume, zrange_hi, zrange_lo by lia; apply Z.eqb_refl).
  rewrite Hd. cbn [andb]. apply orb_true_iff. right. unfold csr_gpu_legal.
  rewrite !one_dimensional_pt, !coord_pt.
  assert (A1 : adjacent Z.ltb (zrange l h) = true) by (apply (@adjacent_sorted _ Z.lt); [intros a b; apply Z.ltb_lt|apply zrange_sorted]).
  rewrite A1, (zero_based_pt H5 H6). cbn [andb]. rewrite !andb_true_iff. repeat split.
  - apply forallb_forall. intros p Hp. apply in_map_iff in Hp. destruct Hp as [r [<- Hr]]. apply in_zrange in Hr. destruct (H1 r Hr) as [E G].
    unfold row_first, row_last. rewrite E. cbn. apply Z.leb_le. exact G.
  - apply rows_consecutive_zrange. intros r R1 R2. unfold row_first, row_last. destruct (H1 r ltac:(lia)) as [-> _]. destruct (H1 (r + 1) ltac:(lia)) as [-> _].
    cbn. apply H2. lia.
  - destruct (map pt (zrange l h)) as [|p ps] eqn:Ep; [reflexivity|].
    assert (El : p = pt l) by (rewrite zrange_cons in Ep by lia; cbn in Ep; injection Ep as <- _; reflexivity).
    assert (Eh : last (p :: ps) p = pt h).
    { rewrite <- Ep. rewrite (zrange_app (a:=l) (b:=h-1) (c:=h)) by lia. replace (h - 1 + 1) with h by lia.
      rewrite (zrange_cons (a:=h) (b:=h)) by lia. rewrite (zrange_nil (a:=h+1) (b:=h)) by lia. rewrite map_app. apply last_last. }
    rewrite Eh, El. unfold row_first, row_last. destruct (H1 l ltac:(lia)) as [-> _]. destruct (H1 h ltac:(lia)) as [-> _]. cbn [lo hi coord pt hd].
    rewrite <- H3. destruct (list_eq_dec Z.eq_dec kdom kdom); [reflexivity|congruence].
  - apply forallb_forall. intros p Hp. apply in_map_iff in Hp. destruct Hp as [k [<- Hk]]. destruct (H4 k Hk) as [-> Hc]. apply mem_pt. exact Hc.
Qed.

(** ** COO *)
Section Coo.
Variables (gs : point -> list T -> T) (m : coo T) (dst src : pvec) (s : store loc T) (odom kdom idom : list Z) (row col : Z -> Z).
Variables (by_ brow bcol bval bx : Z) (dev : device T).
Hypothesis Hon : coo_on_gpu m dst src s odom kdom idom row col by_ brow bcol bval bx dev.

Theorem C75_coo_task_usable :
  (exists t, coo_gpu_task exact gs m dst src (map pt odom) (map pt kdom) (map pt idom) = Ok t) <-> contiguous kdom /\ row_sorted row kdom.
Proof.
  destruct Hon as [H1 H2 [O1 [O2 O3]] [P1 P2] D1 D2 D3 D4 D5 Hs].
  rewrite (gpu_task_ok exact (COO m) gs dst src (map pt odom) (map pt kdom) (map pt idom)). apply (@coo_shape _ m odom kdom idom row col); assumption.
Qed.

Theorem C75_coo_task_is_the_cusparse_call : forall t, (forall p l, reduces_to exact l (gs p l)) ->
  coo_gpu_task exact gs m dst src (map pt odom) (map pt kdom) (map pt idom) = Ok t ->
  coo_cuda_legal odom kdom idom by_ brow bcol bval bx dev /\
  forall dev', coo_cuda exact odom kdom idom by_ brow bcol bval bx dev dev' ->
    (forall r, In r odom -> vals dev' (by_ + r) = Some (run t s (at_point dst (pt r)))) /\
    (forall ad, (forall r, In r odom -> ad <> by_ + r) -> vals dev' ad = vals dev ad).
Proof.
  intros t Hgs Ht. destruct (proj1 C75_coo_task_usable (ex_intro _ t Ht)) as [Hc Hr].
  destruct (C45_coo_gpu_equals_cpu Hon Hc Hr) as [L1 L2]. split; [exact L1|]. intros dev' Hd. destruct (L2 dev' Hd) as [E1 E2]. split; [|exact E2].
  intros r Hir. rewrite (E1 r Hir). f_equal. destruct Hon as [H1 H2 [O1 [O2 O3]] [P1 P2] D1 D2 D3 D4 D5 Hs].
  assert (Hnd : NoDup (map pt odom)).
  { apply FinFun.Injective_map_NoDup; [intros a b E; injection E; auto|]. clear - O1. induction O1; constructor; auto. intros Hin. rewrite Forall_forall in H. apply H in Hin. lia. }
  assert (Hip : In (pt r) (map pt odom)) by (apply in_map; exact Hir).
  rewrite (@coo_gpu_value _ exact gs m dst src _ _ _ t s (pt r) Hnd Hs Hip Ht).
  rewrite (@cpu_coo m dst src s odom kdom idom row col (fun k Hk => proj1 (H1 k Hk)) (fun k Hk => proj1 (H2 k Hk)) (fun k Hk => proj2 (H1 k Hk)) (fun k Hk => proj2 (H2 k Hk)) Hs r Hir).
  assert (Ef : filter (in_row (COO m) (pt r)) (map pt kdom) = map pt (filter (fun k => row k =? r) kdom)).
  { assert (G : forall l, (forall k, In k l -> In k kdom) -> filter (in_row (COO m) (pt r)) (map pt l) = map pt (filter (fun k => row k =? r) l)); [|apply G; auto].
    induction l as [|k l IH]; intros Hl; [reflexivity|]. cbn [map filter]. rewrite IH by (intros x Hx; apply Hl; right; exact Hx).
    cbn [in_row]. destruct (H1 k (Hl k (or_introl eq_refl))) as [-> _].
    destruct (point_eq_dec (pt (row k)) (pt r)) as [E|E].
    - injection E as E. rewrite (proj2 (Z.eqb_eq _ _) E). reflexivity.
    - destruct (row k =? r) eqn:E3; [apply Z.eqb_eq in E3; rewrite E3 in E; congruence|reflexivity]. }
  rewrite Ef. unfold row_sum. rewrite (reduces_to_exact (Hgs (pt r) _)). rewrite map_map.
  assert (Em : map (fun x => amul exact (co_entry m (pt x)) (s (at_point src (co_col m (pt x))))) (filter (fun k => row k =? r) kdom) =
               map (fun k => lift2 Rmult (co_entry m (pt k)) (s (at_point src (pt (col k))))) (filter (fun k => row k =? r) kdom)).
  { apply map_ext_in. intros k Hk. apply filter_In in Hk. destruct Hk as [Hk _]. destruct (H2 k Hk) as [-> _]. reflexivity. }
  rewrite Em. destruct (filter (fun k => row k =? r) kdom) as [|k0 ks]; [cbn; apply oplus_0_r|reflexivity].
Qed.
End Coo.

(** ** CSR *)
Section Csr.
Variables (gs : point -> list T -> T) (m : csr T) (dst src : pvec) (s : store loc T) (l h : Z) (kdom idom : list Z) (rp : Z -> Z * Z) (col : Z -> Z).
Variables (by_ bcol bval bx : Z) (dev : device T) (order : list Z).
Hypothesis Hon : csr_on_gpu m dst src s l h kdom idom rp col by_ bcol bval bx dev.

Theorem C75_csr_task_usable : exists t, csr_gpu_task exact gs m dst src (map pt (zrange l h)) (map pt kdom) (map pt idom) = Ok t.
Proof.
  destruct Hon as [H0 H1 H2 H3 H4 H5 H6 H7 H8 H9 H10 H11].
  apply (gpu_task_ok exact (CSR m) gs dst src (map pt (zrange l h)) (map pt kdom) (map pt idom)). apply (@csr_shape _ m l h kdom idom rp col); assumption.
Qed.
Theorem C75_csr_task_is_the_cusparse_call : forall t, (forall p l, reduces_to exact l (gs p l)) ->
  Permutation order (thread_ids (get_num_blocks_1d (h - l + 1))) ->
  csr_gpu_task exact gs m dst src (map pt (zrange l h)) (map pt kdom) (map pt idom) = Ok t ->
  csr_cuda_legal order (zrange l h) kdom idom rp by_ bcol bval bx dev /\
  forall dev', csr_cuda exact order (zrange l h) kdom idom rp by_ bcol bval bx dev dev' ->
    (forall r, l <= r <= h -> vals dev' (by_ + r) = Some (run t s (at_point dst (pt r)))) /\
    (forall ad, (forall r, l <= r <= h -> ad <> by_ + r) -> vals dev' ad = vals dev ad).
Proof.
  intros t Hgs Hord Ht. destruct (C45_csr_gpu_overwrites Hon Hord) as [L1 [t' [_ L2]]]. split; [exact L1|]. intros dev' Hd. destruct (L2 dev' Hd) as [E1 E2].
  split; [|exact E2]. intros r Hr. destruct (E1 r Hr) as (q & Eq & Es & _). rewrite Eq, Es. f_equal.
  destruct Hon as [H0 H1 H2 H3 H4 H5 H6 H7 H8 H9 H10 H11].
  assert (Hnd : NoDup (map pt (zrange l h))) by (apply FinFun.Injective_map_NoDup; [intros a b E; injection E; auto|apply NoDup_zrange]).
  assert (Hip : In (pt r) (map pt (zrange l h))) by (apply in_map, in_zrange; exact Hr).
  rewrite (@csr_gpu_value _ exact gs m dst src _ _ _ t s (pt r) Hnd H11 Hip Ht). rewrite (reduces_to_exact (Hgs (pt r) _)). unfold row_sum. f_equal.
  assert (Ef : filter (in_row (CSR m) (pt r)) (map pt kdom) = map pt (zrange (fst (rp r)) (snd (rp r)))).
  { destruct (@rp_within l h rp H0 (fun r Hr => proj2 (H1 r Hr)) H2 r Hr) as [W1 W2].
    rewrite <- (@filter_interval (fst (rp l)) (snd (rp h)) _ _ W1 W2). rewrite <- H3. clear - H1 Hr.
    induction kdom as [|k ks IH]; [reflexivity|]. cbn [map filter in_row]. rewrite (@rp_contains m l h rp (fun r Hr => proj1 (H1 r Hr)) r k Hr).
    destruct ((fst (rp r) <=? k) && (k <=? snd (rp r))); cbn [map]; rewrite <- IH; reflexivity. }
  rewrite Ef, map_map. apply map_ext_in. intros k Hk. apply in_zrange in Hk.
  destruct (@rp_within l h rp H0 (fun r Hr => proj2 (H1 r Hr)) H2 r Hr) as [W1 W2].
  assert (Hin : In k kdom) by (rewrite H3; apply in_zrange; lia). destruct (H4 k Hin) as [-> _]. reflexivity.
Qed.
End Csr.
