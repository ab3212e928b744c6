(** PropsGpuLayout: property C75, continued.  Storage layouts with which every point task may run on a GPU, and examples. *)
From Coq Require Import Reals Lra.
From Verif Require Import Base Index Outcome Sched Async Arith Launch Vector PartitionSpec VectorFacts LaunchFacts Builder BuilderFacts Exec
  ExactSum Matrix MatrixSpec MatrixFacts MatvecFacts PropsVector PropsMatrix Planner PlannerFacts PlannerSetup Solvers PropsPlanner PropsSolver Gpu GpuPlanner GpuPlannerFacts PropsGpuPlanner
  PropsGpu PropsGpuTasks.
Local Open Scope Z_scope.
Set Implicit Arguments.

(** One-dimensional index spaces with coordinates from 0 up; partitions into intervals; COO entries stored in order of their
    rows; CSR row [z] stored at positions start z .. start (z+1) - 1; all columns in the domain space. *)
Definition gpu_layout {V} (lg : legion) (cs : list (setup_call V)) : Prop := forall m d r, In (m, d, r) (mats_of cs) ->
  (exists idom, is_points lg (space_of cs d) = map pt idom /\ increasing idom /\ (forall c, In c idom -> 0 <= c)) /\
  (forall piece, In piece (part_pieces lg (part_of cs r)) -> exists l h, 0 <= l /\ piece = map pt (zrange l h)) /\
  match m with
  | COO m => exists n (row : Z -> Z), co_kpts m = map pt (zrange 0 (n - 1)) /\
      (forall k, 0 <= k < n -> co_row m (pt k) = pt (row k) /\ In (co_col m (pt k)) (is_points lg (space_of cs d))) /\
      (forall k, 0 <= k -> k + 1 < n -> row k <= row (k + 1))
  | CSR m => exists n (start : Z -> Z), cs_kpts m = map pt (zrange 0 (n - 1)) /\
      (forall k, 0 <= k < n -> In (cs_col m (pt k)) (is_points lg (space_of cs d))) /\
      (forall z, In (pt z) (is_points lg (cs_rows m)) -> cs_rowptr m (pt z) = mk_rect (pt (start z)) (pt (start (z + 1) - 1)) /\
         0 <= start z <= start (z + 1) /\ start (z + 1) <= n)
  end.

Lemma filter_map_pt (f : point -> bool) (g : Z -> bool) l : (forall z, In z l -> f (pt z) = g z) -> filter f (map pt l) = map pt (filter g l).
Proof.
  induction l as [|z l IH]; intros H; [reflexivity|]. cbn [map filter]. rewrite (H z (or_introl eq_refl)), IH by (intros x Hx; apply H; right; exact Hx).
  destruct (g z); reflexivity.
Qed.
Lemma filter_same {X} (f g : X -> bool) l : (forall x, In x l -> f x = g x) -> filter f l = filter g l.
Proof. induction l as [|a l IH]; intros H; [reflexivity|]. cbn. rewrite (H a (or_introl eq_refl)), IH by (intros x Hx; apply H; right; exact Hx). reflexivity. Qed.
(** the rows of an interval own the positions from the first start to the last end *)
Lemma starts_cover (start : Z -> Z) l n : (forall z, l <= z < l + Z.of_nat n -> start z <= start (z + 1)) ->
  forall k, start l <= k < start (l + Z.of_nat n) <-> exists z, l <= z < l + Z.of_nat n /\ start z <= k < start (z + 1).
Proof.
  induction n as [|n IH]; intros H k.
  - replace (l + Z.of_nat 0) with l by lia. split; [lia|intros [z Hz]; lia].
  - assert (H' : forall z, l <= z < l + Z.of_nat n -> start z <= start (z + 1)) by (intros z Hz; apply H; lia). specialize (IH H' k).
    replace (l + Z.of_nat (S n)) with (l + Z.of_nat n + 1) by lia. split.
    + intros Hk. destruct (Z_lt_ge_dec k (start (l + Z.of_nat n))) as [C|C].
      * destruct (proj1 IH ltac:(lia)) as [z [Hz1 Hz2]]. exists z. split; [lia|exact Hz2].
      * exists (l + Z.of_nat n). split; lia.
    + assert (M : start l <= start (l + Z.of_nat n)).
      { clear IH k. clear H'. induction n as [|n IHn]; [replace (l + Z.of_nat 0) with l by lia; lia|].
        assert (start l <= start (l + Z.of_nat n)) by (apply IHn; intros z Hz; apply H; lia).
        assert (G := H (l + Z.of_nat n) ltac:(lia)). replace (l + Z.of_nat (S n)) with (l + Z.of_nat n + 1) by lia. lia. }
      assert (G := H (l + Z.of_nat n) ltac:(lia)).
      intros [z [Hz1 Hz2]]. destruct (Z.eq_dec z (l + Z.of_nat n)) as [->|Hne]; [lia|]. assert (start l <= k < start (l + Z.of_nat n)) by (apply IH; exists z; lia). lia.
Qed.

(** ** C75: such a system can be mapped to GPUs in any way whatever *)
Theorem C75_sorted_storage_is_gpu_usable : forall (V : Type) (lg : legion) (mp : mapping V) (cs : list (setup_call V)),
  legion_ok lg -> gpu_layout lg cs -> gpu_usable lg mp cs.
Proof.
  intros V lg mp cs Hlg Hl st j m d r kps c piece kpiece ghost Hj Hk Hp Hkp Hg _.
  destruct (Hl m d r (nth_error_In _ _ Hj)) as [[idom [Ei [Oi Pi]]] [Hpieces Hm]].
  destruct (Hpieces piece (nth_error_In _ _ Hp)) as [l [h [H0 Ep]]].
  destruct (kernel_from_range_pieces _ _ _ Hk) as [Ek Hrows].
  assert (Ekp : kpiece = filter (kernel_in_piece m piece) (kpts m)).
  { rewrite Ek, nth_error_map_some, Hp in Hkp. injection Hkp as <-. reflexivity. }
  assert (Egh : ghost = map pt (filter (fun z => mem (pt z) (map (kcol m) kpiece)) idom)).
  { rewrite domain_from_kernel_eq, nth_error_map_some, Hkp in Hg. injection Hg as <-. rewrite Ei. apply filter_map_pt. reflexivity. }
  set (gdom := filter (fun z => mem (pt z) (map (kcol m) kpiece)) idom) in *.
  assert (Og : increasing gdom) by (apply StronglySorted_filter; exact Oi).
  assert (Pg : forall z, In z gdom -> 0 <= z) by (intros z Hz; apply filter_In in Hz; apply Pi; apply Hz).
  assert (Hcol : forall kp, In kp kpiece -> In (kcol m kp) (is_points lg (space_of cs d)) -> kcol m kp = pt (coord (kcol m kp)) /\ In (coord (kcol m kp)) gdom).
  { intros kp Hin Hc. rewrite Ei in Hc. apply in_map_iff in Hc. destruct Hc as [z [Ez Hz]]. rewrite <- Ez. split; [reflexivity|].
    apply filter_In. split; [exact Hz|]. apply mem_spec. apply in_map_iff. exists kp. split; [symmetry; exact Ez|exact Hin]. }
  assert (Hinc := proj2 (proj2 Hlg (part_of cs r) piece (nth_error_In _ _ Hp))).
  destruct m as [m|m]; cbn [kpts kcol] in *.
  - destruct Hm as [n [row [E1 [E2 E3]]]].
    assert (Ed : kpiece = map pt (filter (fun k => (l <=? row k) && (row k <=? h)) (zrange 0 (n - 1)))).
    { rewrite Ekp, E1. apply filter_map_pt. intros k Hkk. apply in_zrange in Hkk. cbn [kernel_in_piece]. destruct (E2 k ltac:(lia)) as [-> _]. rewrite Ep.
      destruct (mem (pt (row k)) (map pt (zrange l h))) eqn:Em.
      - apply mem_pt in Em. apply in_zrange in Em. symmetry. apply andb_true_iff. rewrite !Z.leb_le. lia.
      - symmetry. apply not_true_iff_false. intros C. apply andb_true_iff in C. rewrite !Z.leb_le in C. apply not_true_iff_false in Em. apply Em. apply mem_pt. apply in_zrange. lia. }
    rewrite Egh, Ep, Ed. rewrite Ed in Hcol. set (kdom := filter _ (zrange 0 (n - 1))) in *.
    assert (Hk0 : forall k, In k kdom -> 0 <= k < n /\ l <= row k <= h).
    { intros k Hkk. apply filter_In in Hkk. destruct Hkk as [K1 K2]. apply in_zrange in K1. apply andb_true_iff in K2. rewrite !Z.leb_le in K2. lia. }
    apply (@coo_shape _ m (zrange l h) kdom gdom row (fun k => coord (co_col m (pt k)))).
    + intros k Hkk. destruct (Hk0 k Hkk). split; [apply E2; assumption|apply in_zrange; lia].
    + intros k Hkk. destruct (Hk0 k Hkk). apply (Hcol (pt k)); [apply in_map; exact Hkk|apply E2; assumption].
    + apply zrange_sorted.
    + exact Og.
    + intros z Hz. apply in_zrange in Hz. lia.
    + exact Pg.
    + split; [apply C45_row_sorted_storage_is_contiguous; exact E3|]. intros k K1 K2. destruct (Hk0 _ K1). destruct (Hk0 _ K2). apply E3; lia.
  - destruct Hm as [n [start [E1 [E2 E3]]]]. destruct (Z_le_gt_dec l h) as [Hlh|Hlh].
    2:{ rewrite Ep, zrange_nil by lia. reflexivity. }
    assert (Hrow : forall z, l <= z <= h -> cs_rowptr m (pt z) = mk_rect (pt (start z)) (pt (start (z + 1) - 1)) /\ 0 <= start z <= start (z + 1) /\ start (z + 1) <= n).
    { intros z Hz. apply E3. rewrite <- Hrows. apply Hinc. rewrite Ep. apply in_map. apply in_zrange. lia. }
    assert (Hcov := @starts_cover start l (Z.to_nat (h - l + 1))). replace (l + Z.of_nat (Z.to_nat (h - l + 1))) with (h + 1) in Hcov by lia.
    assert (Hmono : forall z, l <= z < h + 1 -> start z <= start (z + 1)) by (intros z Hz; destruct (Hrow z ltac:(lia)); lia). specialize (Hcov Hmono).
    assert (Ed : kpiece = map pt (zrange (start l) (start (h + 1) - 1))).
    { destruct (Hrow l ltac:(lia)) as [_ [B1 _]]. destruct (Hrow h ltac:(lia)) as [_ [_ B2]].
      rewrite Ekp, E1. rewrite <- (@filter_interval 0 (n - 1) (start l) (start (h + 1) - 1)) by lia. apply filter_map_pt. intros k Hkk. cbn [kernel_in_piece].
      assert (Hc : forall z, l <= z <= h -> contains (cs_rowptr m (pt z)) (pt k) = (start z <=? k) && (k <=? start (z + 1) - 1)).
      { intros z Hz. destruct (Hrow z Hz) as [-> _]. unfold contains, pt. cbn. apply andb_true_r. }
      rewrite Ep. destruct (existsb _ _) eqn:Ee.
      - apply existsb_exists in Ee. destruct Ee as [p [Hpp Hcp]]. apply in_map_iff in Hpp. destruct Hpp as [z [<- Hz]]. apply in_zrange in Hz. rewrite Hc in Hcp by lia.
        apply andb_true_iff in Hcp. rewrite !Z.leb_le in Hcp. assert (start l <= k < start (h + 1)) by (apply Hcov; exists z; lia).
        symmetry. apply andb_true_iff. rewrite !Z.leb_le. lia.
      - symmetry. apply not_true_iff_false. intros C. apply andb_true_iff in C. rewrite !Z.leb_le in C. apply not_true_iff_false in Ee. apply Ee.
        destruct (proj1 (Hcov k) ltac:(lia)) as [z [Hz1 Hz2]]. apply existsb_exists. exists (pt z). split; [apply in_map, in_zrange; lia|].
        rewrite Hc by lia. apply andb_true_iff. rewrite !Z.leb_le. lia. }
    rewrite Egh, Ep, Ed. rewrite Ed in Hcol. destruct (Hrow l ltac:(lia)) as [_ [B1 _]]. destruct (Hrow h ltac:(lia)) as [_ [_ B2]].
    apply (@csr_shape _ m l h (zrange (start l) (start (h + 1) - 1)) gdom (fun z => (start z, start (z + 1) - 1)) (fun k => coord (cs_col m (pt k)))).
    + exact Hlh.
    + intros z Hz. destruct (Hrow z Hz) as [E B]. cbn [fst snd]. split; [exact E|lia].
    + intros z Hz. cbn [fst snd]. lia.
    + reflexivity.
    + intros k Hkk. apply (Hcol (pt k)); [apply in_map; exact Hkk|]. apply E2. apply in_zrange in Hkk. lia.
    + exact Og.
    + exact Pg.
Qed.
