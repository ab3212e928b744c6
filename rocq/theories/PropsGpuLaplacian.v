(** PropsGpuLaplacian: property C75, continued.  Examples, and CG on the 1-D Laplacian example system with the products on GPUs. *)
From Coq Require Import Reals Lra.
From Verif Require Import Base Index IndexFacts Outcome Sched Async Arith Launch Vector PartitionSpec VectorFacts LaunchFacts Builder BuilderFacts Exec
  ExactSum Matrix MatrixSpec MatrixFacts MatvecFacts PropsVector PropsMatrix Planner PlannerFacts PlannerSetup Solvers PropsPlanner PropsSolver.
From Verif Require StencilFill StencilFillFacts.
From Verif Require Import ExampleSystems PropsExample PropsLaplacian Gpu GpuPlanner GpuPlannerFacts PropsGpuPlanner PropsGpu PropsGpuTasks PropsGpuLayout.
Set Implicit Arguments.

(** the grid 0..n-1 as Legion enumerates it, in pieces that are intervals *)
Definition interval_grid (lg : legion) (n : nat) (v : pvec) : Prop :=
  is_points lg (pv_space v) = map pt (zrange 0 (Z.of_nat n - 1)) /\
  forall piece, In piece (part_pieces lg (pv_part v)) -> exists l h, (0 <= l)%Z /\ piece = map pt (zrange l h).
Lemma interval_grid_1d lg n v : interval_grid lg n v -> grid_1d n (is_points lg (pv_space v)).
Proof.
  intros [E _] p. rewrite E, in_map_iff. split.
  - intros [z [<- Hz]]. apply in_zrange in Hz. exists (Z.to_nat z). split; [lia|]. unfold pt. f_equal. lia.
  - intros [i [Hi ->]]. exists (Z.of_nat i). split; [reflexivity|]. apply in_zrange. lia.
Qed.
Lemma kernel_points_range n : kernel_points n = map pt (zrange 0 (n - 1)).
Proof. unfold kernel_points, zrange, pt. rewrite map_map. replace (n - 1 - 0 + 1)%Z with n by lia. apply map_ext. intros i. reflexivity. Qed.
Lemma lap_row_mono k : (0 <= k)%Z -> (lap_row k <= lap_row (k + 1))%Z.
Proof. intros H. unfold lap_row. rewrite !Z.quot_div_nonneg by lia. apply Z.div_le_mono; lia. Qed.
Lemma lap_col_range n k : (1 <= n)%Z -> (0 <= k < 3 * n - 2)%Z -> (0 <= lap_col k < n)%Z.
Proof. intros Hn Hk. unfold lap_col. rewrite Z.quot_div_nonneg by lia. assert (D := Z.div_mod (k + 1) 3 ltac:(lia)). assert (Dm := Z.mod_pos_bound (k + 1) 3 ltac:(lia)). lia. Qed.

Lemma laplacian_layout lg n v w m : 2 <= n -> interval_grid lg n v -> laplacian_matrix n (pv_space v) m -> gpu_layout lg (system v w m).
Proof.
  intros Hn [Eg Hp] Hm m' d r Hin. cbn in Hin. destruct Hin as [E|[]]. injection E as <- <- <-. change (space_of (system v w m) 0) with (pv_space v). change (part_of (system v w m) 0) with (pv_part v).
  split; [|split; [exact Hp|]].
  { exists (zrange 0 (Z.of_nat n - 1)). split; [exact Eg|]. split; [apply zrange_sorted|]. intros c Hc. apply in_zrange in Hc. lia. }
  assert (Hcol : forall k, (0 <= k < 3 * Z.of_nat n - 2)%Z -> In [lap_col k] (is_points lg (pv_space v))).
  { intros k Hk. rewrite Eg. apply in_map_iff. exists (lap_col k). split; [reflexivity|]. apply in_zrange. assert (B := @lap_col_range (Z.of_nat n) k ltac:(lia) Hk). lia. }
  destruct Hm as [pieces tr s Ht|kpieces rpieces tr s Ht].
  - assert (M := @coo_trace_memory _ exact _ _ _ s Ht). exists (3 * Z.of_nat n - 2)%Z, lap_row. split; [apply kernel_points_range|]. split.
    + intros k Hk. cbn [coo_of co_row co_col kernel_index hd pt]. destruct (M k Hk) as [-> [-> _]]. cbn [as_point]. split; [reflexivity|apply Hcol; exact Hk].
    + intros k H0 _. apply lap_row_mono. exact H0.
  - destruct (@csr_trace_memory _ exact _ _ _ _ s Ht) as [M1 M2].
    exists (3 * Z.of_nat n - 2)%Z, (fun z => if z =? 0 then 0 else if z =? Z.of_nat n then 3 * Z.of_nat n - 2 else 3 * z - 1)%Z. split; [apply kernel_points_range|]. split.
    + intros k Hk. cbn [csr_of cs_col kernel_index hd pt]. destruct (M1 k Hk) as [-> _]. cbn [as_point]. apply Hcol; exact Hk.
    + intros z Hz. cbn [csr_of cs_rows cs_rowptr] in *. rewrite Eg in Hz. apply in_map_iff in Hz. destruct Hz as [z' [E Hz]]. injection E as ->. apply in_zrange in Hz.
      change (pt z) with [z]. rewrite M2 by lia. cbn [as_rect]. unfold lap_rowptr, pt.
      destruct (Z.eqb_spec z 0) as [-> |H0]; [|destruct (Z.eqb_spec z (Z.of_nat n - 1)) as [-> |H1]]; cbn [fst snd];
      repeat match goal with |- context [(?a =? ?b)%Z] => destruct (Z.eqb_spec a b) end; try lia; (split; [|lia]); f_equal; f_equal; lia.
Qed.
Lemma one_matrix_leads {T} v w (m : matrix T) : csr_leads (system v w m).
Proof. intros before m' d r after E _. cbn in E. destruct before as [|b before]; [intros ? ? ? []|]. injection E as _ E. destruct before; discriminate. Qed.

(** ** CG solves the system whatever the mapper does *)
Theorem C75_cg_solves_laplacian_on_gpus : forall lg mp red (n : nat) v w m st s (b : nat -> R),
  legion_ok lg -> legal_mapping exact mp -> legal_reduction exact red -> 2 <= n -> interval_grid lg n v -> laplacian_matrix n (pv_space v) m ->
  constructed lg v -> constructed lg w -> pv_space w = pv_space v -> pv_part w = pv_part v -> storage v <> storage w ->
  pv_region v < next_region st -> pv_region w < next_region st ->
  (forall i, i < n -> s (at_point v [Z.of_nat i]) = Some 0%R) -> (forall i, i < n -> s (at_point w [Z.of_nat i]) = Some (b i)) ->
  exists pl0 (k : nat) (x : nat -> R), do_calls lg (new_planner (option R)) [AddSol v; AddRhs w; AddMatrix m 0 0] = Ok pl0 /\
    k <= n /\ accepted (cg_run_with exact lg red (mapped_pl_matvec exact lg mp) pl0 k) st /\
    (forall c st' s', ends (cg_run_with exact lg red (mapped_pl_matvec exact lg mp) pl0 k) st s c st' s' -> forall i, i < n -> s' (at_point v [Z.of_nat i]) = Some (x i)) /\
    (forall i, i < n -> tridiagonal_equation n x b i).
Proof.
  intros lg mp red n v w m st s b Hlg Hmp Hred Hn Hg Hm Hv Hw Es Ep Hst Rv Rw Hx Hb. assert (Hg1 := interval_grid_1d Hg).
  destruct (@C44_cg_solves_laplacian lg red n v w m st s b Hlg Hred ltac:(lia) Hg1 Hm Hv Hw Es Ep Hst Rv Rw Hx Hb) as [pl0 [k [x [E [Hk [Ha [He Ht]]]]]]].
  exists pl0, k, x. destruct (@laplacian_facts n (pv_space v) m lg ltac:(lia) Hm Hg1) as [F1 [F2 _]].
  destruct (@system_set_up _ lg v w m st Hv Hw Es Ep Hst Rv Rw F1) as [pl0' Hs]; [destruct m; [exact I|exact F2]|].
  assert (E2 := proj2 Hs). unfold system in E2. rewrite E in E2. injection E2 as <-.
  assert (Hu := @C75_sorted_storage_is_gpu_usable _ lg mp (system v w m) Hlg (@laplacian_layout lg n v w m Hn Hg Hm)).
  destruct (@C75_cg_run lg mp red (system v w m) st pl0 s Hlg Hs ltac:(cbn; lia) Hu Hmp (@one_matrix_leads _ v w m) k) as [_ [A2 A3]].
  split; [exact E|]. split; [exact Hk|]. split; [exact A2|]. split; [|exact Ht].
  intros c st' s' H. apply (He c st' s'). apply A3. exact H.
Qed.

(** ** Examples *)
(** tasks of even colour on GPUs, which add from the left; odd colours on CPUs *)
Definition even_mapping : mapping (option R) := mk_mapping (fun _ _ c => Nat.even c) (fun _ _ _ _ l => osum l).
Lemma osum_reduces l : reduces_to exact l (osum l).
Proof.
  induction l as [|x l IH]; cbn [osum fold_right]; [exact (red_empty exact)|]. fold (osum l). change (lift2 Rplus x (osum l)) with (aadd exact x (osum l)).
  apply red_node with (l1 := [x]) (l2 := l); [reflexivity|constructor|exact IH].
Qed.
Lemma even_legal : legal_mapping exact even_mapping.
Proof. intros st j c p l. apply osum_reduces. Qed.
Lemma ex_layout : gpu_layout lg2 ex_calls.
Proof.
  intros m d r Hin. cbn in Hin.
  assert (Hd : d < 2 /\ r < 2) by (destruct Hin as [E|[E|[E|[]]]]; injection E as <- <- <-; lia). destruct Hd as [Hd Hr].
  assert (Es : is_points lg2 (space_of ex_calls d) = map pt (zrange 0 1)) by (destruct d as [|[|d]]; [reflexivity|reflexivity|lia]).
  assert (Ep : part_pieces lg2 (part_of ex_calls r) = [map pt (zrange 0 0); map pt (zrange 1 1)]) by (destruct r as [|[|r]]; [reflexivity|reflexivity|lia]).
  rewrite Es, Ep. split; [|split].
  - exists (zrange 0 1). split; [reflexivity|]. split; [apply zrange_sorted|]. intros c Hc. apply in_zrange in Hc. lia.
  - intros piece [<-|[<-|[]]]; eexists _, _; (split; [|reflexivity]); lia.
  - assert (C4 : forall k, (0 <= k < 4)%Z -> k = 0%Z \/ k = 1%Z \/ k = 2%Z \/ k = 3%Z) by (intros; lia).
    assert (Hm : m = COO m2_coo \/ m = CSR m2_csr) by (destruct Hin as [E|[E|[E|[]]]]; injection E as <- _ _; auto).
    destruct Hm as [-> | ->].
    + exists 4%Z, (fun k => if (k <? 2)%Z then 0%Z else 1%Z). split; [reflexivity|]. split.
      * intros k Hk. destruct (C4 k Hk) as [-> |[-> |[-> | ->]]]; (split; [reflexivity|]); apply mem_spec; reflexivity.
      * intros k H0 H1. destruct (Z.ltb_spec k 2); destruct (Z.ltb_spec (k + 1) 2); lia.
    + exists 4%Z, (fun z => 2 * z)%Z. split; [reflexivity|]. split.
      * intros k Hk. destruct (C4 k Hk) as [-> |[-> |[-> | ->]]]; apply mem_spec; reflexivity.
      * intros z Hz. cbn in Hz. destruct Hz as [E|[E|[]]]; injection E as <-; (split; [reflexivity|lia]).
Qed.
Lemma ex_leads : csr_leads ex_calls.
Proof.
  intros before m d r after E Hm m' d' r' Hin. change (mats_of ex_calls) with [(COO m2_coo, 0, 0); (CSR m2_csr, 1, 1); (COO m2_coo, 1, 0)] in E.
  destruct before as [|b1 [|b2 [|b3 before]]]; cbn [app] in E.
  - destruct Hin.
  - injection E as <- <- <- <- _. destruct Hin as [E|[]]. injection E as <- <- <-. lia.
  - injection E as <- <- <- <- <- _. discriminate.
  - injection E as _ _ _ E. destruct before; discriminate.
Qed.
(** A COO block, a CSR block and a second COO block, on a partition of two pieces; colour 0 on a GPU, colour 1 on a CPU. *)
Example C75_example : legion_ok lg2 /\ legal_mapping exact even_mapping /\ gpu_layout lg2 ex_calls /\ gpu_usable lg2 even_mapping ex_calls /\ csr_leads ex_calls /\
  exists pl0 pl, set_up lg2 ex_calls ex_st pl0 /\ working lg2 ex_calls 3 pl.
Proof.
  split; [exact lg2_ok|]. split; [exact even_legal|]. split; [exact ex_layout|]. split; [apply C75_sorted_storage_is_gpu_usable; [exact lg2_ok|exact ex_layout]|].
  split; [exact ex_leads|]. destruct C16_C18_example as [_ [_ [pl0 [pl [H1 [H2 _]]]]]]. exists pl0, pl. auto.
Qed.
(** [csr_leads] is needed: the same CSR matrix added twice to one block row counts once where it runs on a GPU. *)
Definition twice_calls : list (setup_call (option R)) := [AddSol (v2 3 10); AddRhs (v2 3 20); AddMatrix (CSR m2_csr) 0 0; AddMatrix (CSR m2_csr) 0 0].
Example C75_twice_example : forall st x, x 0 [0%Z] = Some 1%R -> x 0 [1%Z] = Some 1%R ->
  mapped_product exact lg2 even_mapping twice_calls st x 0 0 [0%Z] = Some 1%R /\ block_product exact lg2 twice_calls x 0 [0%Z] = Some 2%R.
Proof.
  intros st x H0 H1. unfold mapped_product, block_product. change (mats_of twice_calls) with [(CSR m2_csr, 0, 0); (CSR m2_csr, 0, 0)].
  cbn [length seq combine fold_left Nat.eqb]. unfold mapped_value. cbn [on_gpu even_mapping Nat.even].
  change (space_of twice_calls 0) with 1. change (row_entries lg2 (CSR m2_csr) 1 [0%Z]) with [[0%Z]; [1%Z]]. cbn [map gpu_sum even_mapping is_csr].
  unfold add_products. cbn [fold_left].
  change (PropsMatrix.column (CSR m2_csr) [0%Z]) with [0%Z]. change (PropsMatrix.column (CSR m2_csr) [1%Z]) with [1%Z].
  change (value (CSR m2_csr) [0%Z]) with (Some 2%R). change (value (CSR m2_csr) [1%Z]) with (Some (-1)%R). rewrite H0, H1.
  cbn [osum fold_right exact aadd amul a0 lift2]. split; f_equal; lra.
Qed.
Example C75_laplacian_example : interval_grid lg2 2 (v2 3 10).
Proof. split; [reflexivity|]. cbn. intros piece [<-|[<-|[]]]; [exists 0%Z, 0%Z|exists 1%Z, 1%Z]; (split; [lia|reflexivity]). Qed.
