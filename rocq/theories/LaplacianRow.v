(** LaplacianRow: the 1-D Laplacian matrices the generators leave in memory, in any arithmetic, and the planner's product with them entry by entry. *)
From Verif Require Import Base Index IndexFacts Outcome Sched Async Arith Launch Vector PartitionSpec VectorFacts LaunchFacts Matrix MatrixSpec MatrixFacts
  MatvecFacts Builder BuilderFacts Planner PlannerFacts PlannerSetup Solvers PropsVector PropsMatrix PropsPlanner.
From Verif Require StencilFill StencilFillFacts.
From Verif Require Import ExampleSystems PropsExample PropsLaplacian.
Set Implicit Arguments.

(** the matrices the generators can leave in memory in arithmetic [A]: any initial memory, partition and schedule; the CSR row space [rows] *)
Inductive laplacian_matrix_in (T : Type) (A : arith T) (n : nat) (rows : nat) : matrix T -> Prop :=
| laplacian_in_coo : forall pieces tr s, coo_laplacian_trace A (Z.of_nat n) pieces tr ->
    laplacian_matrix_in A n rows (COO (coo_of A (run StencilFillFacts.loc_eq_dec tr s) (lap_kernel_size (Z.of_nat n))))
| laplacian_in_csr : forall kpieces rpieces tr s, csr_laplacian_trace A (Z.of_nat n) kpieces rpieces tr ->
    laplacian_matrix_in A n rows (CSR (csr_of A (run StencilFillFacts.loc_eq_dec tr s) (lap_kernel_size (Z.of_nat n)) rows)).
(** row [i] of the product with [x]: -1 x_(i-1) + 2 x_i - 1 x_(i+1), added up in this order, starting from zero *)
Definition row_value {T} (A : arith T) (n : nat) (x : nat -> T) (i : nat) : T :=
  let s0 := match i with 0 => a0 A | S j => aadd A (a0 A) (amul A (minus_one A) (x j)) end in
  let s1 := aadd A s0 (amul A (plus_two A) (x i)) in
  if S i <? n then aadd A s1 (amul A (minus_one A) (x (S i))) else s1.

Section Facts.
Variable T : Type.
Variable A : arith T.
Variables (n rows : nat) (lg : legion) (m : matrix T).
Hypothesis Hn : 1 <= n.
Hypothesis Hm : laplacian_matrix_in A n rows m.
Hypothesis Hg : grid_1d n (is_points lg rows).
Lemma kernel_points_seq : kernel_points (lap_kernel_size (Z.of_nat n)) = map (fun k => [Z.of_nat k]) (seq 0 (3 * n - 2)).
Proof. unfold kernel_points, lap_kernel_size. replace (Z.to_nat (3 * Z.of_nat n - 2)) with (3 * n - 2) by lia. reflexivity. Qed.
Lemma laplacian_in_facts :
  matrix_ok lg m /\ match m with COO _ => True | CSR c => rows = cs_rows c end /\
  positions m = map (fun k => [Z.of_nat k]) (seq 0 (3 * n - 2)) /\
  (forall k i, k < 3 * n - 2 -> i < n -> in_row m [Z.of_nat i] [Z.of_nat k] = ((k + 1) / 3 =? i)) /\
  (forall k, k < 3 * n - 2 -> PropsMatrix.column m [Z.of_nat k] = [(Z.of_nat k - 2 * Z.of_nat ((k + 1) / 3))%Z]) /\
  (forall k, k < 3 * n - 2 -> value m [Z.of_nat k] = lap_entry A (Z.of_nat k)).
Proof.
  assert (Q : forall k, Z.quot (Z.of_nat k + 1) 3 = Z.of_nat ((k + 1) / 3)).
  { intros k. rewrite Z.quot_div_nonneg by lia. rewrite Nat2Z.inj_div. f_equal. lia. }
  pose proof kernel_points_seq as Kp.
  destruct Hm as [pieces tr s Ht|kpieces rpieces tr s Ht].
  - assert (M := @coo_trace_memory _ A _ _ _ s Ht). split; [exact I|]. split; [exact I|]. split; [exact Kp|].
    split; [|split]; intros k; intros; (destruct (M (Z.of_nat k)) as [M1 [M2 M3]]; [unfold lap_kernel_size; lia|]);
      cbn [in_row PropsMatrix.column value coo_of co_row co_col co_entry kernel_index hd]; rewrite ?M1, ?M2, ?M3; cbn [as_point as_entry]; unfold lap_row, lap_col; rewrite ?Q; try reflexivity.
    destruct (point_eq_dec _ _) as [E|E]; destruct (Nat.eqb_spec ((k + 1) / 3) i) as [E'|E']; try reflexivity; [apply (f_equal (hd 0%Z)) in E; cbn [hd] in E; apply Nat2Z.inj in E; contradiction|congruence].
  - destruct (@csr_trace_memory _ A _ _ _ _ s Ht) as [M1 M2].
    assert (Rp : forall i k, i < n -> k < 3 * n - 2 -> contains (as_rect (run StencilFillFacts.loc_eq_dec tr s (StencilFill.LRowptr [Z.of_nat i]))) [Z.of_nat k] = ((k + 1) / 3 =? i)).
    { intros i k Hi Hk. rewrite M2 by lia. cbn [as_rect]. rewrite rowptr_row by lia. unfold lap_row. rewrite Q. destruct (Nat.eqb_spec ((k + 1) / 3) i) as [E|E]; [apply Z.eqb_eq|apply Z.eqb_neq]; lia. }
    split; [|split; [reflexivity|split; [exact Kp|split; [|split]]]].
    + intros kp r1 r2 H1 H2 H3 H4 H5. cbn [csr_of cs_kpts cs_rows cs_rowptr] in *. rewrite Kp in H1. apply in_map_iff in H1. destruct H1 as [k [<- Hk]]. apply in_seq in Hk.
      apply Hg in H2. apply Hg in H3. destruct H2 as [i [Hi ->]]. destruct H3 as [j [Hj ->]]. rewrite Rp in H4, H5 by lia. apply Nat.eqb_eq in H4, H5. congruence.
    + intros k i Hk Hi. cbn [in_row csr_of cs_rowptr]. apply Rp; assumption.
    + intros k Hk. destruct (M1 (Z.of_nat k)) as [N1 _]; [unfold lap_kernel_size; lia|]. cbn [PropsMatrix.column csr_of cs_col kernel_index hd]. rewrite N1. cbn [as_point]. unfold lap_col. rewrite Q. reflexivity.
    + intros k Hk. destruct (M1 (Z.of_nat k)) as [_ N2]; [unfold lap_kernel_size; lia|]. cbn [value csr_of cs_entry kernel_index hd]. rewrite N2. reflexivity.
Qed.
(** the entries of row i are stored at positions 3i-1, 3i, 3i+1 *)
Lemma filter_none {X} (f : X -> bool) l : (forall x, In x l -> f x = false) -> filter f l = [].
Proof. induction l as [|x l IH]; intros H; [reflexivity|]. cbn [filter]. rewrite (H x (or_introl eq_refl)). apply IH. intros y Hy. apply H. right. exact Hy. Qed.
Lemma filter_all {X} (f : X -> bool) l : (forall x, In x l -> f x = true) -> filter f l = l.
Proof. induction l as [|x l IH]; intros H; [reflexivity|]. cbn [filter]. rewrite (H x (or_introl eq_refl)). f_equal. apply IH. intros y Hy. apply H. right. exact Hy. Qed.
Lemma div3 k i : (k + 1) / 3 = i <-> 3 * i <= k + 1 <= 3 * i + 2.
Proof.
  assert (Dm := Nat.div_mod (k + 1) 3 ltac:(lia)). assert (Bm := Nat.mod_upper_bound (k + 1) 3 ltac:(lia)). split; [lia|]. intros H. symmetry. apply (Nat.div_unique _ 3 i (k + 1 - 3 * i)); lia.
Qed.
Lemma row_entries_lap i : i < n -> row_entries lg m rows [Z.of_nat i] =
  map (fun k => [Z.of_nat k]) ((match i with 0 => [] | S _ => [3 * i - 1] end) ++ [3 * i] ++ (if S i <? n then [3 * i + 1] else [])).
Proof.
  intros Hi. destruct laplacian_in_facts as (_ & _ & Hp & Hr & Hc & _). unfold row_entries. rewrite Hp.
  assert (F : forall (g : point -> bool) l, filter g (map (fun k => [Z.of_nat k]) l) = map (fun k => [Z.of_nat k]) (filter (fun k => g [Z.of_nat k]) l)).
  { intros g l. induction l as [|k l IH]; [reflexivity|]. cbn [map filter]. rewrite IH. destruct (g [Z.of_nat k]); reflexivity. }
  rewrite F. f_equal. rewrite (filter_ext_in _ (fun k => (3 * i <=? k + 1) && (k + 1 <=? 3 * i + 2))).
  2:{ intros k Hk. apply in_seq in Hk. rewrite Hr by lia. assert (Hm' : mem (PropsMatrix.column m [Z.of_nat k]) (is_points lg rows) = true).
      { apply mem_spec. rewrite Hc by lia. apply Hg. assert (Dm := Nat.div_mod (k + 1) 3 ltac:(lia)). assert (Bm := Nat.mod_upper_bound (k + 1) 3 ltac:(lia)).
        exists (k - 2 * ((k + 1) / 3)). split; [lia|]. f_equal. lia. }
      rewrite Hm', andb_true_r. pose proof (div3 k i) as D. destruct (Nat.eqb_spec ((k + 1) / 3) i) as [E|E].
      - apply D in E. symmetry. apply andb_true_iff. split; apply Nat.leb_le; lia.
      - symmetry. apply andb_false_iff. destruct (Nat.leb_spec (3 * i) (k + 1)); [right|left; reflexivity]. apply Nat.leb_gt. lia. }
  set (cnt := (match i with 0 => 0 | S _ => 1 end) + 1 + (if S i <? n then 1 else 0)).
  assert (E : seq 0 (3 * n - 2) = seq 0 (3 * i - 1) ++ seq (3 * i - 1) cnt ++ seq (3 * i - 1 + cnt) (3 * n - 2 - (3 * i - 1 + cnt))).
  { rewrite <- !seq_app. f_equal. unfold cnt. destruct i as [|j]; [destruct (Nat.ltb_spec 1 n); lia|destruct (Nat.ltb_spec (S (S j)) n); lia]. }
  rewrite E, !filter_app. rewrite filter_none, (@filter_all _ _ (seq (3 * i - 1) cnt)), filter_none, app_nil_r.
  - cbn [app]. unfold cnt. destruct i as [|i]; [destruct (Nat.ltb_spec 1 n); cbn; reflexivity|]. destruct (Nat.ltb_spec (S (S i)) n); cbn [Nat.add seq app]; repeat (apply f_equal2; [lia|]); reflexivity.
  - intros k Hk. apply in_seq in Hk. apply andb_false_iff. right. apply Nat.leb_gt. unfold cnt in Hk. destruct i; [destruct (Nat.ltb_spec 1 n); lia|]. destruct (Nat.ltb_spec (S (S i)) n); lia.
  - intros k Hk. apply in_seq in Hk. apply andb_true_iff. unfold cnt in Hk. split; apply Nat.leb_le; (destruct i; [destruct (Nat.ltb_spec 1 n); lia|]); destruct (Nat.ltb_spec (S (S i)) n); lia.
  - intros k Hk. apply in_seq in Hk. apply andb_false_iff. left. apply Nat.leb_gt. lia.
Qed.
Lemma product_lap (v w : pvec) (x : nat -> point -> T) i : pv_space v = rows -> i < n ->
  block_product A lg (system v w m) x 0 [Z.of_nat i] = row_value A n (fun j => x 0 [Z.of_nat j]) i.
Proof.
  intros Ev Hi. destruct laplacian_in_facts as (_ & _ & Hp & Hr & Hc & He).
  unfold block_product, system. cbn [mats_of flat_map app fold_left Nat.eqb]. unfold space_of. cbn [sols_of flat_map app nth]. rewrite Ev, row_entries_lap by exact Hi.
  assert (S1 : forall k j, k < 3 * n - 2 -> k = j + 2 * ((k + 1) / 3) -> PropsMatrix.column m [Z.of_nat k] = [Z.of_nat j]) by (intros k j Hk E; rewrite Hc by exact Hk; f_equal; lia).
  assert (E2 : value m [Z.of_nat (3 * i)] = plus_two A).
  { rewrite He by lia. unfold lap_entry. replace (Z.of_nat (3 * i)) with (Z.of_nat i * 3)%Z by lia. rewrite Z.rem_mul by lia. reflexivity. }
  assert (C2 : PropsMatrix.column m [Z.of_nat (3 * i)] = [Z.of_nat i]) by (apply S1; [lia|]; rewrite (proj2 (div3 (3 * i) i)) by lia; lia).
  assert (E1 : forall j k, k < 3 * n - 2 -> k = 3 * j + 1 \/ k = 3 * j + 2 -> value m [Z.of_nat k] = minus_one A).
  { intros j k Hk Ek. rewrite He by lia. unfold lap_entry. destruct (Z.eqb_spec (Z.rem (Z.of_nat k) 3) 0) as [E|E]; [|reflexivity]. rewrite Z.rem_mod_nonneg in E by lia. apply Z.mod_divide in E; [|lia]. destruct E as [z E]. lia. }
  unfold add_products, row_value. rewrite !map_app, !fold_left_app. cbn [map fold_left]. rewrite E2, C2.
  assert (E3 : fold_left (fun acc kp => aadd A acc (amul A (value m kp) (x 0 (PropsMatrix.column m kp)))) (map (fun k => [Z.of_nat k]) (match i with 0 => [] | S _ => [3 * i - 1] end)) (a0 A) =
    match i with 0 => a0 A | S j => aadd A (a0 A) (amul A (minus_one A) (x 0 [Z.of_nat j])) end).
  { destruct i as [|j]; [reflexivity|]. cbn [map fold_left]. rewrite (@E1 j) by lia. rewrite (@S1 (3 * S j - 1) j); [reflexivity|lia|]. rewrite (proj2 (div3 (3 * S j - 1) (S j))) by lia. lia. }
  rewrite E3. destruct (Nat.ltb_spec (S i) n) as [L|L]; [|reflexivity]. cbn [map fold_left]. rewrite (@E1 i) by lia. rewrite (@S1 (3 * i + 1) (S i)); [reflexivity|lia|]. rewrite (proj2 (div3 (3 * i + 1) i)) by lia. lia.
Qed.
End Facts.
