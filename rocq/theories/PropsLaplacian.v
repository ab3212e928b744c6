(** PropsLaplacian: property C44 (CG solves the 1-D Laplacian example system). *)
From Coq Require Import Reals Lra.
From Verif Require Import Base Index IndexFacts Outcome Sched Async Arith Launch Vector PartitionSpec VectorFacts LaunchFacts Matrix MatrixSpec MatrixFacts
  MatvecFacts Builder BuilderFacts Exec ExactSum LinAlg CGSpec CGMath Planner PlannerFacts PlannerSetup Solvers PropsVector PropsMatrix PropsPlanner
  PropsSolver SolverFacts PropsCG PropsCGConv.
From Verif Require StencilFill StencilFillFacts.
From Verif Require Import ExampleSystems PropsExample.
Set Implicit Arguments.

(** ** One matrix, one solution vector, one right-hand side *)
Definition system {T} (v w : pvec) (m : matrix T) : list (setup_call T) := [AddSol v; AddRhs w; AddMatrix m 0 0].
Lemma system_set_up {T} lg (v w : pvec) (m : matrix T) st :
  constructed lg v -> constructed lg w -> pv_space w = pv_space v -> pv_part w = pv_part v -> storage v <> storage w ->
  pv_region v < next_region st -> pv_region w < next_region st -> matrix_ok lg m ->
  match m with COO _ => True | CSR c => pv_space v = cs_rows c end ->
  exists pl0, set_up lg (system v w m) st pl0.
Proof.
  intros Hv Hw Es Ep Hst Rv Rw Hm Hr.
  destruct (@C18_legal_calls_accepted T lg (system v w m)) as [pl0 [E _]].
  - cbn. intros x [<-|[<-|[]]]; assumption.
  - cbn. intros m' d r [E|[]]. injection E as <- <- <-. exact Hm.
  - intros before c after E. unfold system in E. destruct before as [|b1 [|b2 [|b3 before]]]; cbn [app] in E.
    + injection E as <- _. cbn. intros x Hx. discriminate.
    + injection E as <- <- _. cbn. intros x Hx. injection Hx as <-. auto.
    + injection E as <- <- <- _. cbn [allowed sols_of rhss_of flat_map app length nth_error]. repeat split; try lia. destruct m; [exact I|]. intros x Hx. injection Hx as <-. exact Hr.
    + injection E as _ _ _ E. destruct before; discriminate.
  - exists pl0. split; [|exact E]. constructor.
    + cbn. intros x [<-|[<-|[]]]; auto.
    + cbn. constructor; [cbn; intuition congruence|]. constructor; [cbn; tauto|constructor].
    + reflexivity.
    + cbn. intros m' d r [E'|[]]. injection E' as <- <- <-. exact Hm.
Qed.

(** ** Specification: the points 0..n-1, and the tridiagonal system 2 x_i - x_(i-1) - x_(i+1) = b_i with zero outside *)
Definition grid_1d (n : nat) (ps : list point) : Prop := forall p, In p ps <-> exists i, i < n /\ p = [Z.of_nat i].
Definition outside_zero (n : nat) (x : nat -> R) (i : nat) : R := if i <? n then x i else 0%R.
Definition tridiagonal_equation (n : nat) (x b : nat -> R) (i : nat) : Prop :=
  (2 * x i - (match i with 0 => 0 | S j => x j end) - outside_zero n x (S i) = b i)%R.
(** the matrices the generators can leave in memory: any initial memory, partition and schedule; the CSR row space [rows] *)
Inductive laplacian_matrix (n : nat) (rows : nat) : matrix (option R) -> Prop :=
| laplacian_coo : forall pieces tr s, coo_laplacian_trace exact (Z.of_nat n) pieces tr ->
    laplacian_matrix n rows (COO (coo_of exact (run StencilFillFacts.loc_eq_dec tr s) (lap_kernel_size (Z.of_nat n))))
| laplacian_csr : forall kpieces rpieces tr s, csr_laplacian_trace exact (Z.of_nat n) kpieces rpieces tr ->
    laplacian_matrix n rows (CSR (csr_of exact (run StencilFillFacts.loc_eq_dec tr s) (lap_kernel_size (Z.of_nat n)) rows)).

(** ** The stored matrix is the tridiagonal operator *)
Definition lap_coeff (i j : nat) : R := if i =? j then 2%R else if (S i =? j) || (i =? S j) then (-1)%R else 0%R.
Definition stored (i j : nat) (t : Z * Z * option R) : R :=
  let '(r, c, e) := t in if ((r =? Z.of_nat i) && (c =? Z.of_nat j))%Z then match e with Some x => x | None => 0%R end else 0%R.
Lemma Rsum_seq_pick (f : nat -> R) i n : i < n -> (forall j, j < n -> j <> i -> f j = 0%R) -> Rsum f (seq 0 n) = f i.
Proof.
  intros Hi H. rewrite (Rsum_ext f (fun j => if Nat.eq_dec j i then f j else 0%R)).
  - rewrite (Rsum_indicator Nat.eq_dec f i (seq_NoDup n 0)). destruct (in_dec Nat.eq_dec i (seq 0 n)) as [_|N]; [reflexivity|]. exfalso. apply N. apply in_seq. lia.
  - intros j Hj. apply in_seq in Hj. destruct (Nat.eq_dec j i); [reflexivity|]. apply H; [lia|assumption].
Qed.
Lemma tridiagonal_sum n i j : i < n -> j < n -> Rsum (stored i j) (tridiagonal (plus_two exact) (minus_one exact) n) = lap_coeff i j.
Proof.
  intros Hi Hj. unfold tridiagonal. rewrite Rsum_flat_map. rewrite (Rsum_seq_pick _ Hi).
  - unfold tridiagonal_row. rewrite !Rsum_app.
    assert (E : forall c e, stored i j (Z.of_nat i, c, e) = if (c =? Z.of_nat j)%Z then match e with Some x => x | None => 0%R end else 0%R).
    { intros c e. unfold stored. rewrite Z.eqb_refl. reflexivity. }
    destruct (Z.ltb_spec 0 (Z.of_nat i)) as [L1|L1]; destruct (Z.ltb_spec (Z.of_nat i) (Z.of_nat n - 1)) as [L2|L2];
      rewrite ?Rsum_cons, ?Rsum_nil, ?E; unfold lap_coeff; cbn [plus_two minus_one aadd aneg a1 exact lift1 lift2];
      destruct (Nat.eqb_spec i j); destruct (Nat.eqb_spec (S i) j); destruct (Nat.eqb_spec i (S j)); cbn [orb];
      repeat match goal with |- context [(?a =? ?b)%Z] => destruct (Z.eqb_spec a b) end; try lia; lra.
  - intros k Hk Hne. unfold tridiagonal_row.
    assert (E : forall c e, stored i j (Z.of_nat k, c, e) = 0%R) by (intros c e; unfold stored; destruct (Z.eqb_spec (Z.of_nat k) (Z.of_nat i)); [lia|reflexivity]).
    destruct (0 <? Z.of_nat k)%Z; destruct (Z.of_nat k <? Z.of_nat n - 1)%Z; cbn [app]; rewrite ?Rsum_cons, ?Rsum_nil, ?E; lra.
Qed.
Lemma stored_positions n i j (m : matrix (option R)) : 1 <= n -> i < n -> j < n ->
  positions m = kernel_points (lap_kernel_size (Z.of_nat n)) ->
  (forall k, k < 3 * n - 2 -> in_row m [Z.of_nat i] [Z.of_nat k] = (lap_row (Z.of_nat k) =? Z.of_nat i)%Z) ->
  (forall k, k < 3 * n - 2 -> PropsMatrix.column m [Z.of_nat k] = [lap_col (Z.of_nat k)]) ->
  (forall k, k < 3 * n - 2 -> value m [Z.of_nat k] = lap_entry exact (Z.of_nat k)) ->
  Rsum (fun kp => if in_row m [Z.of_nat i] kp && (if point_eq_dec (PropsMatrix.column m kp) [Z.of_nat j] then true else false) then real_value m kp else 0%R) (positions m)
  = lap_coeff i j.
Proof.
  intros Hn Hi Hj Hp H1 H2 H3. rewrite <- (tridiagonal_sum Hi Hj), (tridiagonal_positions exact Hn), Rsum_map, Hp.
  unfold kernel_points, lap_kernel_size. rewrite Rsum_map. replace (Z.to_nat (3 * Z.of_nat n - 2)) with (3 * n - 2) by lia.
  apply Rsum_ext. intros k Hk. apply in_seq in Hk. rewrite H1, H2 by lia. unfold real_value. rewrite H3 by lia. unfold stored, position.
  destruct (lap_row (Z.of_nat k) =? Z.of_nat i)%Z; [|reflexivity]. cbn [andb].
  destruct (point_eq_dec [lap_col (Z.of_nat k)] [Z.of_nat j]) as [E|E]; destruct (Z.eqb_spec (lap_col (Z.of_nat k)) (Z.of_nat j)) as [E'|E']; try reflexivity; congruence.
Qed.
Lemma rowptr_row n i k : (1 <= n)%Z -> (0 <= i < n)%Z -> (0 <= k < 3 * n - 2)%Z ->
  contains (mk_rect [fst (lap_rowptr n i)] [snd (lap_rowptr n i)]) [k] = (lap_row k =? i)%Z.
Proof.
  intros Hn Hi Hk. unfold contains. cbn [lo hi contains_aux]. rewrite andb_true_r. unfold lap_row. rewrite Z.quot_div_nonneg by lia.
  assert (D := Z.div_mod (k + 1) 3 ltac:(lia)). assert (Dm := Z.mod_pos_bound (k + 1) 3 ltac:(lia)).
  unfold lap_rowptr. destruct (Z.eqb_spec i 0) as [->|Hi0]; [|destruct (Z.eqb_spec i (n - 1)) as [->|Hin]]; cbn [fst snd];
    match goal with |- context [(?a <=? k)%Z && (k <=? ?b)%Z] => destruct (Z.leb_spec a k); destruct (Z.leb_spec k b) end; cbn [andb]; symmetry;
    first [apply Z.eqb_eq; lia|apply Z.eqb_neq; lia].
Qed.
Lemma laplacian_facts n rows m lg : 1 <= n -> laplacian_matrix n rows m -> grid_1d n (is_points lg rows) ->
  matrix_ok lg m /\ match m with COO _ => True | CSR c => rows = cs_rows c end /\
  (forall kp, In kp (positions m) -> value m kp <> None) /\
  (forall i j, i < n -> j < n ->
    Rsum (fun kp => if in_row m [Z.of_nat i] kp && (if point_eq_dec (PropsMatrix.column m kp) [Z.of_nat j] then true else false) then real_value m kp else 0%R) (positions m) = lap_coeff i j).
Proof.
  intros Hn Hm Hg.
  assert (Kp : forall kp, In kp (kernel_points (lap_kernel_size (Z.of_nat n))) -> exists k, k < 3 * n - 2 /\ kp = [Z.of_nat k]).
  { intros kp Hk. unfold kernel_points, lap_kernel_size in Hk. apply in_map_iff in Hk. destruct Hk as [k [<- Hk]]. apply in_seq in Hk. exists k. split; [lia|reflexivity]. }
  assert (En : forall k, lap_entry exact k <> None) by (intros k; unfold lap_entry; destruct (Z.rem k 3 =? 0)%Z; discriminate).
  destruct Hm as [pieces tr s Ht|kpieces rpieces tr s Ht].
  - assert (M := @coo_trace_memory _ exact _ _ _ s Ht). split; [exact I|]. split; [exact I|]. split.
    + cbn [positions value coo_of co_kpts co_entry]. intros kp Hk. destruct (Kp kp Hk) as [k [L ->]]. cbn [kernel_index hd].
      destruct (M (Z.of_nat k)) as [_ [_ ->]]; [unfold lap_kernel_size; lia|]. apply En.
    + intros i j Hi Hj. apply (stored_positions _ Hn Hi Hj); [reflexivity|..]; intros k Hk; (destruct (M (Z.of_nat k)) as [M1 [M2 M3]]; [unfold lap_kernel_size; lia|]);
        cbn [in_row PropsMatrix.column value coo_of co_row co_col co_entry kernel_index hd]; rewrite ?M1, ?M2, ?M3; cbn [as_point as_entry]; try reflexivity.
      destruct (point_eq_dec [lap_row (Z.of_nat k)] [Z.of_nat i]) as [E|E]; destruct (Z.eqb_spec (lap_row (Z.of_nat k)) (Z.of_nat i)); try reflexivity; congruence.
  - destruct (@csr_trace_memory _ exact _ _ _ _ s Ht) as [M1 M2].
    assert (Rp : forall i k, i < n -> k < 3 * n - 2 -> contains (as_rect (run StencilFillFacts.loc_eq_dec tr s (StencilFill.LRowptr [Z.of_nat i]))) [Z.of_nat k] = (lap_row (Z.of_nat k) =? Z.of_nat i)%Z).
    { intros i k Hi Hk. rewrite M2 by lia. cbn [as_rect]. apply rowptr_row; lia. }
    split; [|split; [reflexivity|split]].
    + intros kp r1 r2 H1 H2 H3 H4 H5. cbn [csr_of cs_kpts cs_rows cs_rowptr] in *. destruct (Kp kp H1) as [k [L ->]].
      apply Hg in H2. apply Hg in H3. destruct H2 as [i [Hi ->]]. destruct H3 as [j [Hj ->]]. rewrite Rp in H4, H5 by assumption. apply Z.eqb_eq in H4, H5. congruence.
    + cbn [positions value csr_of cs_kpts cs_entry]. intros kp Hk. destruct (Kp kp Hk) as [k [L ->]]. cbn [kernel_index hd].
      destruct (M1 (Z.of_nat k)) as [_ ->]; [unfold lap_kernel_size; lia|]. apply En.
    + intros i j Hi Hj. apply (stored_positions _ Hn Hi Hj); [reflexivity|..]; intros k Hk; (destruct (M1 (Z.of_nat k)) as [N1 N2]; [unfold lap_kernel_size; lia|]);
        cbn [in_row PropsMatrix.column value csr_of cs_rowptr cs_col cs_entry kernel_index hd]; rewrite ?N1, ?N2; cbn [as_point as_entry]; try reflexivity.
      apply Rp; assumption.
Qed.

(** ** It is symmetric and positive definite *)
Lemma lap_coeff_sym i j : lap_coeff i j = lap_coeff j i.
Proof. unfold lap_coeff. rewrite (Nat.eqb_sym j i), (Nat.eqb_sym (S j) i), (Nat.eqb_sym j (S i)). rewrite (orb_comm (i =? S j)). reflexivity. Qed.
Definition lap_row_sum (n : nat) (x : nat -> R) (i : nat) : R := (2 * x i - match i with 0 => 0 | S j => x j end - outside_zero n x (S i))%R.
Lemma lap_apply n x i : i < n -> Rsum (fun j => lap_coeff i j * x j)%R (seq 0 n) = lap_row_sum n x i.
Proof.
  intros Hi.
  rewrite (Rsum_ext _ (fun j => ((if Nat.eq_dec j i then 2 * x j else 0) + (if Nat.eq_dec j (S i) then -1 * x j else 0)) + (if Nat.eq_dec (S j) i then -1 * x j else 0))%R).
  - rewrite !Rsum_plus, (Rsum_indicator Nat.eq_dec (fun j => 2 * x j)%R i (seq_NoDup n 0)), (Rsum_indicator Nat.eq_dec (fun j => -1 * x j)%R (S i) (seq_NoDup n 0)).
    destruct (in_dec Nat.eq_dec i (seq 0 n)) as [_|N]; [|exfalso; apply N; apply in_seq; lia].
    unfold lap_row_sum, outside_zero.
    assert (E3 : Rsum (fun j => if Nat.eq_dec (S j) i then (-1 * x j)%R else 0%R) (seq 0 n) = (- match i with 0 => 0 | S j => x j end)%R).
    { destruct i as [|i].
      - rewrite (Rsum_ext _ (fun _ => 0%R)); [rewrite Rsum_zero; ring|]. intros j _. destruct (Nat.eq_dec (S j) 0); [discriminate|reflexivity].
      - rewrite (Rsum_ext _ (fun j => if Nat.eq_dec j i then (-1 * x j)%R else 0%R)).
        + rewrite (Rsum_indicator Nat.eq_dec (fun j => -1 * x j)%R i (seq_NoDup n 0)). destruct (in_dec Nat.eq_dec i (seq 0 n)) as [_|N]; [ring|exfalso; apply N; apply in_seq; lia].
        + intros j _. destruct (Nat.eq_dec (S j) (S i)); destruct (Nat.eq_dec j i); try lia; reflexivity. }
    rewrite E3. destruct (in_dec Nat.eq_dec (S i) (seq 0 n)) as [K|K]; destruct (Nat.ltb_spec (S i) n) as [L|L]; try ring; exfalso.
    + apply in_seq in K. lia.
    + apply K. apply in_seq. lia.
  - intros j _. unfold lap_coeff. destruct (Nat.eqb_spec i j); destruct (Nat.eqb_spec (S i) j); destruct (Nat.eqb_spec i (S j)); destruct (Nat.eq_dec j i); destruct (Nat.eq_dec j (S i)); destruct (Nat.eq_dec (S j) i);
      cbn [orb]; try lia; ring.
Qed.
Lemma lap_quadratic n x : Rsum (fun i => x i * lap_row_sum (S n) x i)%R (seq 0 (S n))
  = (x 0%nat * x 0%nat + Rsum (fun i => (x i - x (S i)) * (x i - x (S i)))%R (seq 0 n) + x n * x n)%R.
Proof.
  induction n as [|n IH].
  - cbn [seq]. rewrite Rsum_cons, !Rsum_nil. unfold lap_row_sum, outside_zero. cbn [Nat.ltb Nat.leb]. ring.
  - rewrite (seq_S (S n)), Rsum_app. cbn [Nat.add]. rewrite (seq_S n) at 2. rewrite Rsum_app, !Rsum_cons, !Rsum_nil. cbn [Nat.add].
    assert (E : Rsum (fun i => x i * lap_row_sum (S (S n)) x i)%R (seq 0 (S n)) = (Rsum (fun i => x i * lap_row_sum (S n) x i)%R (seq 0 (S n)) - x n * x (S n))%R).
    { rewrite !(seq_S n), !Rsum_app, !Rsum_cons, !Rsum_nil. cbn [Nat.add].
      rewrite (Rsum_ext (fun i => x i * lap_row_sum (S (S n)) x i)%R (fun i => x i * lap_row_sum (S n) x i)%R).
      - unfold lap_row_sum, outside_zero. replace (S n <? S (S n)) with true by (symmetry; apply Nat.ltb_lt; lia). replace (S n <? S n) with false by (symmetry; apply Nat.ltb_ge; lia). ring.
      - intros i Hi. apply in_seq in Hi. unfold lap_row_sum, outside_zero. replace (S i <? S (S n)) with true by (symmetry; apply Nat.ltb_lt; lia).
        replace (S i <? S n) with true by (symmetry; apply Nat.ltb_lt; lia). reflexivity. }
    rewrite E, IH. unfold lap_row_sum, outside_zero. replace (S (S n) <? S (S n)) with false by (symmetry; apply Nat.ltb_ge; lia). ring.
Qed.
Lemma lap_positive n x : (exists i, i < n /\ x i <> 0%R) -> (0 < Rsum (fun i => x i * lap_row_sum n x i)%R (seq 0 n))%R.
Proof.
  intros [i [Hi Hx]]. destruct n as [|n]; [lia|]. rewrite lap_quadratic.
  assert (P : (0 <= Rsum (fun i => (x i - x (S i)) * (x i - x (S i)))%R (seq 0 n))%R) by (apply Rsum_nonneg; intros; apply Rle_0_sqr).
  destruct (Req_dec (x 0%nat) 0) as [E0|E0]; [|assert (0 < x 0%nat * x 0%nat)%R by nra; assert (0 <= x n * x n)%R by nra; lra].
  destruct (Req_dec (Rsum (fun i => (x i - x (S i)) * (x i - x (S i)))%R (seq 0 n)) 0) as [E1|E1]; [|assert (0 <= x n * x n)%R by nra; rewrite E0; lra].
  exfalso. apply Hx. assert (Z := @Rsum_nonneg_zero _ (fun i => (x i - x (S i)) * (x i - x (S i)))%R (seq 0 n) (fun p _ => Rle_0_sqr (x p - x (S p))) E1).
  assert (G : forall k, k <= n -> x k = 0%R); [|apply G; lia]. induction k as [|k IH]; intros Hk; [exact E0|].
  assert (Zk : ((x k - x (S k)) * (x k - x (S k)) = 0)%R) by (apply Z; apply in_seq; lia). assert (x k = 0%R) by (apply IH; lia). nra.
Qed.

(** ** C44 *)
Definition at_index (x : unknown -> R) (i : nat) : R := x (0, [Z.of_nat i]).
Lemma grid_1d_perm n ps : NoDup ps -> grid_1d n ps -> Permutation ps (map (fun i => [Z.of_nat i]) (seq 0 n)).
Proof.
  intros Hd Hg. apply NoDup_Permutation; [exact Hd| |].
  - apply FinFun.Injective_map_NoDup; [intros a b E; injection E as E; lia|apply seq_NoDup].
  - intros p. rewrite (Hg p), in_map_iff. split; intros [i [H1 H2]]; exists i; rewrite in_seq in *; split; auto; lia.
Qed.
Lemma laplacian_operator lg n v w m : legion_ok lg -> 1 <= n -> grid_1d n (is_points lg (pv_space v)) -> laplacian_matrix n (pv_space v) m ->
  let cs := system v w m in
  length (unknowns lg cs) = n /\
  (forall x i, i < n -> apply_op (unknowns lg cs) (operator cs) x (0, [Z.of_nat i]) = lap_row_sum n (at_index x) i) /\
  symmetric (unknowns lg cs) (operator cs) /\ positive_definite (unknowns lg cs) (operator cs).
Proof.
  intros Hlg Hn Hg Hm cs. destruct (@laplacian_facts n (pv_space v) m lg Hn Hm Hg) as [_ [_ [_ Ho]]].
  assert (Pm : Permutation (unknowns lg cs) (map (fun i => (0, [Z.of_nat i])) (seq 0 n))).
  { unfold unknowns, cs. cbn [system sols_of flat_map app length seq space_of nth]. rewrite app_nil_r. rewrite <- (map_map (fun i => [Z.of_nat i]) (pair 0)). apply Permutation_map.
    apply grid_1d_perm; [apply Hlg|exact Hg]. }
  assert (Op : forall i j, i < n -> j < n -> operator cs (0, [Z.of_nat i]) (0, [Z.of_nat j]) = lap_coeff i j).
  { intros i j Hi Hj. unfold operator, cs. cbn [system mats_of flat_map app]. rewrite Rsum_cons, Rsum_nil. cbn [fst snd Nat.eqb andb]. rewrite (Ho i j Hi Hj). ring. }
  assert (Ap : forall x i, i < n -> apply_op (unknowns lg cs) (operator cs) x (0, [Z.of_nat i]) = lap_row_sum n (at_index x) i).
  { intros x i Hi. unfold apply_op. rewrite (Rsum_perm _ Pm), Rsum_map, <- lap_apply by exact Hi. apply Rsum_ext. intros j Hj. apply in_seq in Hj. rewrite Op by lia. reflexivity. }
  assert (In' : forall u, In u (unknowns lg cs) -> exists i, i < n /\ u = (0, [Z.of_nat i])).
  { intros u Hu. apply (Permutation_in _ Pm) in Hu. apply in_map_iff in Hu. destruct Hu as [i [<- Hi]]. apply in_seq in Hi. exists i. split; [lia|reflexivity]. }
  split; [|split; [exact Ap|split]].
  - rewrite (Permutation_length Pm), map_length, seq_length. reflexivity.
  - intros u u' Hu Hu'. destruct (In' u Hu) as [i [Hi ->]]. destruct (In' u' Hu') as [j [Hj ->]]. rewrite !Op by assumption. apply lap_coeff_sym.
  - intros x Hx. unfold ip. rewrite (Rsum_perm _ Pm), Rsum_map.
    rewrite (Rsum_ext _ (fun i => at_index x i * lap_row_sum n (at_index x) i)%R).
    + apply lap_positive. destruct (existsb (fun i => if Req_EM_T (at_index x i) 0 then false else true) (seq 0 n)) eqn:Ex.
      * apply existsb_exists in Ex. destruct Ex as [i [Hi E]]. apply in_seq in Hi. exists i. split; [lia|]. destruct (Req_EM_T (at_index x i) 0); [discriminate|assumption].
      * exfalso. apply Hx. intros u Hu. destruct (In' u Hu) as [i [Hi ->]]. destruct (Req_EM_T (at_index x i) 0) as [E|E]; [exact E|].
        assert (T : existsb (fun i => if Req_EM_T (at_index x i) 0 then false else true) (seq 0 n) = true); [|congruence].
        apply existsb_exists. exists i. split; [apply in_seq; lia|]. destruct (Req_EM_T (at_index x i) 0); [contradiction|reflexivity].
    + intros i Hi. apply in_seq in Hi. rewrite <- Ap by lia. reflexivity.
Qed.
Theorem C44_cg_solves_laplacian : forall lg red (n : nat) v w m st s (b : nat -> R),
  legion_ok lg -> legal_reduction exact red -> 1 <= n -> grid_1d n (is_points lg (pv_space v)) -> laplacian_matrix n (pv_space v) m ->
  constructed lg v -> constructed lg w -> pv_space w = pv_space v -> pv_part w = pv_part v -> storage v <> storage w ->
  pv_region v < next_region st -> pv_region w < next_region st ->
  (forall i, i < n -> s (at_point v [Z.of_nat i]) = Some 0%R) -> (forall i, i < n -> s (at_point w [Z.of_nat i]) = Some (b i)) ->
  exists pl0 (k : nat) (x : nat -> R), do_calls lg (new_planner (option R)) [AddSol v; AddRhs w; AddMatrix m 0 0] = Ok pl0 /\
    k <= n /\ accepted (cg_run exact lg red pl0 k) st /\
    (forall c st' s', ends (cg_run exact lg red pl0 k) st s c st' s' -> forall i, i < n -> s' (at_point v [Z.of_nat i]) = Some (x i)) /\
    (forall i, i < n -> tridiagonal_equation n x b i).
Proof.
  intros lg red n v w m st s b Hlg Hred Hn Hg Hm Hv Hw Es Ep Hst Rv Rw Hx Hb.
  destruct (@laplacian_facts n (pv_space v) m lg Hn Hm Hg) as [F1 [F2 [F3 _]]].
  destruct (@system_set_up _ lg v w m st Hv Hw Es Ep Hst Rv Rw F1) as [pl0 Hs]; [destruct m; [exact I|exact F2]|].
  destruct (@laplacian_operator lg n v w m Hlg Hn Hg Hm) as [L1 [L2 [L3 L4]]]. set (cs := system v w m) in *.
  set (bu := fun u : unknown => match u with (_, [z]) => b (Z.to_nat z) | _ => 0%R end).
  assert (Hpt : forall p, In p (is_points lg (pv_space v)) -> exists i, i < n /\ p = [Z.of_nat i]) by (intros p; apply Hg).
  destruct (@C38_cg_solves lg red cs st pl0 s bu Hlg Hred Hs) as [k [x [K1 [K2 [K3 [K4 _]]]]]]; try assumption.
  - intros m' d r Hin. cbn in Hin. destruct Hin as [E|[]]. injection E as <- <- <-. exact F3.
  - cbn. lia.
  - intros i v' p Hi Hp. cbn in Hi. destruct i as [|[|i]]; try discriminate. injection Hi as <-. destruct (Hpt p Hp) as [j [Hj ->]]. apply Hx. exact Hj.
  - intros i v' p Hi Hp. cbn in Hi. destruct i as [|[|i]]; try discriminate. injection Hi as <-. rewrite Es in Hp. destruct (Hpt p Hp) as [j [Hj ->]]. rewrite Hb by exact Hj.
    unfold bu. rewrite Nat2Z.id. reflexivity.
  - assert (Hu : forall i, i < n -> In (0, [Z.of_nat i]) (unknowns lg cs)).
    { intros i Hi. apply in_unknowns. cbn. split; [lia|]. apply Hg. exists i. auto. }
    exists pl0, k, (at_index x). split; [apply Hs|]. split; [rewrite <- L1; exact K1|]. split; [exact K2|]. split.
    + intros c st' s' He i Hi. apply (K3 c st' s' He 0 v [Z.of_nat i] eq_refl). apply Hg. exists i. auto.
    + intros i Hi. specialize (K4 _ (Hu i Hi)). rewrite L2 in K4 by exact Hi. unfold bu in K4. rewrite Nat2Z.id in K4. exact K4.
Qed.
(** the hypotheses are met for every size: a single piece, run sequentially, is a legal execution of the generators *)
Lemma one_piece size : partitions_range size [map Z.of_nat (seq 0 (Z.to_nat size))].
Proof.
  split.
  - intros k. split.
    + intros Hk. eexists. split; [left; reflexivity|]. apply in_map_iff. exists (Z.to_nat k). split; [lia|]. apply in_seq. lia.
    + intros [ks [[<-|[]] Hk]]. apply in_map_iff in Hk. destruct Hk as [i [<- Hi]]. apply in_seq in Hi. lia.
  - intros i j ki kj k Hi Hj _ _. destruct i as [|[|i]]; destruct j as [|[|j]]; try discriminate; reflexivity.
Qed.
Lemma laplacian_matrices_exist n rows : (exists c, laplacian_matrix n rows (COO c)) /\ (exists c, laplacian_matrix n rows (CSR c)).
Proof.
  split.
  - eexists. eapply (@laplacian_coo n rows _ _ (fun _ => StencilFill.CRect 0 0)). split; [apply one_piece|apply interleave_concat].
  - eexists. eapply (@laplacian_csr n rows _ _ _ (fun _ => StencilFill.CRect 0 0)). split; [apply one_piece|]. split; [apply one_piece|apply interleave_concat].
Qed.
Example C44_example : legion_ok lg2 /\ grid_1d 2 (is_points lg2 (pv_space (v2 3 10))) /\ constructed lg2 (v2 3 10) /\ constructed lg2 (v2 3 11) /\
  storage (v2 3 10) <> storage (v2 3 11) /\ (exists c, laplacian_matrix 2 (pv_space (v2 3 10)) (COO c)) /\ (exists c, laplacian_matrix 2 (pv_space (v2 3 10)) (CSR c)) /\
  tridiagonal_equation 3 (fun i => nth i [1; 1; 1]%R 0%R) (fun i => nth i [1; 0; 1]%R 0%R) 1.
Proof.
  split; [exact lg2_ok|]. split.
  { intros p. cbn. split.
    - intros [<-|[<-|[]]]; [exists 0|exists 1]; split; auto.
    - intros [i [Hi ->]]. destruct i as [|[|i]]; [left|right; left|lia]; reflexivity. }
  split; [exists 3, 10, 0; reflexivity|]. split; [exists 3, 11, 0; reflexivity|]. split; [discriminate|].
  destruct (laplacian_matrices_exist 2 (pv_space (v2 3 10))) as [H1 H2]. split; [exact H1|]. split; [exact H2|].
  unfold tridiagonal_equation, outside_zero. cbn. lra.
Qed.
