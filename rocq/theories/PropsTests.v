(** PropsTests: property C77 (the outputs the project's own CG tests expect, for every size, partition, number of steps, schedule and reduction order). *)
From Coq Require Import Reals Lra.
From Verif Require Import Base Index IndexFacts Outcome Sched Async Arith Launch Vector PartitionSpec VectorFacts LaunchFacts Matrix MatrixSpec MatrixFacts
  MatvecFacts Builder BuilderFacts Exec ExactSum LinAlg CGSpec CGMath Planner PlannerFacts PlannerSetup Solvers PropsVector PropsMatrix PropsPlanner
  PropsSolver SolverFacts PropsCG PropsCGConv.
From Verif Require StencilFill StencilFillFacts PropsScalar.
From Verif Require Import ExampleSystems PropsExample PropsLaplacian LaplacianRow LaplacianCG ScalarProg FreshFacts FreshOps PrintScalar PropsPrintScalar VectorProg TestPrograms.
Set Implicit Arguments.

(** an element-wise call as a step of a longer program *)
Lemma wp_call T (A : arith T) lg y op ln (Q : unit -> ist -> store loc T -> Prop) st s : legion_ok lg -> constructed lg y -> call A lg y op = Ok ln ->
  (forall s', (forall p, In p (is_points lg (pv_space y)) -> new_entry A s y p op (s' (at_point y p))) ->
    (forall l, (forall p, In p (is_points lg (pv_space y)) -> l <> at_point y p) -> s' l = s l) -> Q tt st s') ->
  wp (issue (call A lg y op)) Q st s.
Proof.
  intros Hlg Hc E HQ. eapply wp_issue; [exact E|exact (@call_good T A lg Hlg y op ln Hc E)|].
  assert (G : Forall good_launch [ln]) by (constructor; [exact (@call_good T A lg Hlg y op ln Hc E)|constructor]).
  destruct (some_end [ln] s) as [s1 H1]. destruct (@call_effect T A lg Hlg y op ln Hc E s s1 H1) as [C1 C2]. assert (Ef := launches_end_effect G H1).
  apply HQ.
  - intros p Hp. rewrite <- Ef. apply C1. exact Hp.
  - intros l Hl. rewrite <- Ef. apply C2. exact Hl.
Qed.
Lemma wp_new_vector T lg q (Q : pvec -> ist -> store loc T -> Prop) st s : is_disjoint lg q = true -> is_complete lg q = true ->
  (let v := mk_pvec (part_parent lg q) 0 (next_region st) (part_colors lg q) q in
   constructed lg v -> Q v (mk_ist (next_fut st) (S (next_region st))) s) -> wp (new_vector T lg q) Q st s.
Proof.
  intros Hd Hc HQ. unfold new_vector. apply wp_bind. apply wp_fresh_region.
  assert (E : make_vector lg q (next_region st) 0 = Ok (mk_pvec (part_parent lg q) 0 (next_region st) (part_colors lg q) q)) by (unfold make_vector; rewrite Hd, Hc; reflexivity).
  eapply wp_lift; [exact E|]. apply HQ. exists q, (next_region st), 0. exact E.
Qed.
Lemma fr_cg_test T (A : arith T) lg red q m k : fresh_results (cg_test A lg red q m k).
Proof.
  assert (N : fresh_results (new_vector T lg q)) by (apply fr_bind; [apply fr_fresh_region|intros r; apply fr_lift]).
  unfold cg_test. apply fr_bind; [exact N|]. intros w. apply fr_bind; [apply (@fr_call T A lg w (Fill (a1 A)))|]. intros _. apply fr_bind; [exact N|]. intros v.
  apply fr_bind; [apply fr_zero_fill|]. intros _. apply fr_bind; [apply fr_lift|]. intros pl. apply fr_bind; [apply fr_cg_run|]. intros c. apply fr_ret.
Qed.

(** ** C77.  Specification: the lines the CG tests print for a grid of [n] points, in order, and the solution they approach *)
Definition expected_line (n j : nat) : R :=
  match j with
  | 0 => INR n
  | S _ => if 2 * j <=? n then (INR (n - 2 * j) * INR (n - 2 * j + 2) / 2)%R else 0%R
  end.
Lemma expected_line_form n j : expected_line n j = norm_form n j.
Proof.
  destruct j as [|j]; [reflexivity|]. unfold expected_line, norm_form. destruct (Nat.leb_spec (2 * S j) n) as [L|L].
  - destruct (Nat.ltb_spec n (2 * S j)); [lia|]. rewrite plus_INR, minus_INR, mult_INR by exact L. change (INR 2) with 2%R. reflexivity.
  - destruct (Nat.ltb_spec n (2 * S j)); [reflexivity|lia].
Qed.

Lemma cg_test_wp lg red n q m k st s :
  legion_ok lg -> legal_reduction exact red -> 1 <= n -> grid_1d n (is_points lg (part_parent lg q)) -> is_disjoint lg q = true -> is_complete lg q = true ->
  laplacian_matrix n (part_parent lg q) m -> 2 * k <= n + 1 ->
  wp (cg_test exact lg red q m k) (fun y st1 s1 =>
    ((forall f, In f (cg_norms (snd y)) -> f < next_fut st1) /\ map (fun f => s1 (LFut f)) (cg_norms (snd y)) = map (fun j => Some (expected_line n j)) (seq 0 (S k))) /\
    forall i, i < n -> s1 (at_point (fst y) [Z.of_nat i]) = Some (x_form n k i)) st s.
Proof.
  intros Hlg Hred Hn Hg Hd Hc Hm Hk. unfold cg_test. apply wp_bind. apply wp_new_vector; [exact Hd|exact Hc|]. set (w := mk_pvec _ _ _ _ _). intros v0 Hw. subst v0. fold w in Hw.
  apply wp_bind. change (issue (constant_fill lg w (a1 exact))) with (issue (call exact lg w (Fill (a1 exact)))).
  eapply wp_call; [exact Hlg|exact Hw|reflexivity|]. intros s1 E1 F1.
  apply wp_bind. apply wp_new_vector; [exact Hd|exact Hc|]. set (v := mk_pvec _ _ _ _ _). intros v0 Hv. subst v0. fold v in Hv.
  apply wp_bind. change (issue (zero_fill exact lg v)) with (issue (call exact lg v ZeroFill)).
  eapply wp_call; [exact Hlg|exact Hv|reflexivity|]. intros s2 E2 F2. cbn [next_fut next_region] in *.
  set (st2 := mk_ist _ _). assert (Nvw : pv_region v <> pv_region w) by (unfold v, w; cbn; lia).
  destruct (@laplacian_facts n (pv_space v) m lg Hn Hm Hg) as [G1 [G2 [G3 _]]].
  destruct (@system_set_up _ lg v w m st2 Hv Hw eq_refl eq_refl) as [pl0 Hs]; [unfold storage; congruence|unfold v, st2; cbn; lia|unfold w, st2; cbn; lia|exact G1|destruct m; [exact I|exact G2]|].
  apply wp_bind. eapply wp_lift; [exact (proj2 Hs)|]. set (cs := system v w m) in *.
  assert (Hre : real_entries cs). { intros m' d r Hin. cbn in Hin. destruct Hin as [E|[]]. injection E as <- <- <-. exact G3. }
  assert (HU : Permutation (unknowns lg cs) (map (fun i => (0, [Z.of_nat i])) (seq 0 n))).
  { unfold unknowns, cs. cbn [system sols_of flat_map app length seq space_of nth]. rewrite app_nil_r. rewrite <- (map_map (fun i => [Z.of_nat i]) (pair 0)). apply Permutation_map.
    apply grid_1d_perm; [apply Hlg|exact Hg]. }
  destruct (@laplacian_operator lg n v w m Hlg Hn Hg Hm) as [_ [L2 _]]. fold cs in L2.
  assert (Hx : vectors_hold lg s2 (sols_of cs) (fun _ => 0%R)).
  { intros i v' p Hi Hp. cbn in Hi. destruct i as [|[|i]]; try discriminate. injection Hi as <-. specialize (E2 p Hp). inversion E2. reflexivity. }
  assert (Hb : vectors_hold lg s2 (rhss_of cs) (fun _ => 1%R)).
  { intros i v' p Hi Hp. cbn in Hi. destruct i as [|[|i]]; try discriminate. injection Hi as <-. rewrite F2.
    - specialize (E1 p Hp). inversion E1. reflexivity.
    - intros p' _ E. unfold at_point in E. injection E as E _. unfold v in E. cbn in E. lia. }
  apply wp_bind. eapply wp_conseq; [apply (@cg_run_inv lg Hlg red Hred cs Hre ltac:(cbn; lia) (fun _ => 0%R) (fun _ => 1%R) st2 pl0 s2 k Hs Hx Hb)|].
  - intros j Hj. apply (@cg_steps_defined n _ _ HU L2). lia.
  - intros c st' s' Hi. destruct Hi as [Hwk C3 C4 HX _ _ _ _ HL HN]. apply wp_ret. cbn [fst snd]. split; [split|].
    + intros f Hf. apply In_nth_error in Hf. destruct Hf as [j Hj]. apply (HN j f Hj).
    + apply nth_ext with (d := None) (d' := None); [rewrite !map_length, seq_length; exact HL|]. rewrite map_length, HL. intros j Hj.
      destruct (nth_error (cg_norms c) j) as [f|] eqn:Ej; [|apply nth_error_None in Ej; lia].
      rewrite (nth_indep _ None (s' (LFut 0))) by (rewrite map_length, HL; exact Hj). rewrite (map_nth (fun f => s' (LFut f))).
      rewrite (nth_error_nth _ _ 0 Ej). rewrite (proj2 (HN j f Ej)).
      rewrite (nth_indep (map _ (seq 0 (S k))) None (Some (expected_line n 0))) by (rewrite map_length, seq_length; exact Hj). rewrite (map_nth (fun j => Some (expected_line n j))), seq_nth by exact Hj.
      f_equal. rewrite expected_line_form. apply (@cg_norms_closed_form n _ _ HU L2). lia.
    + intros i Hi. apply (proj1 (@sol_vector_is lg (cg_pl c) s' _)) in HX. rewrite C3 in HX. rewrite (HX 0 v [Z.of_nat i] eq_refl); [|apply Hg; exists i; auto].
      f_equal. apply (@cg_closed_form n _ _ HU L2 k Hk i Hi).
Qed.

(** The tests' programs are accepted and print, in every execution and in this order, the squared residual norms n, (n-2)n/2, (n-4)(n-2)/2, ... *)
Theorem C77_cg_tests_print : forall lg red n q m k st s,
  legion_ok lg -> legal_reduction exact red -> 1 <= n -> grid_1d n (is_points lg (part_parent lg q)) -> partition_disjoint lg q -> partition_complete lg q ->
  laplacian_matrix n (part_parent lg q) m -> 2 * k <= n + 1 ->
  exists sol c prints lns st',
    (let* y := cg_test exact lg red q m k in let* ns := print_in_order exact (cg_norms (snd y)) in ret (y, ns)) st = Ok ((sol, c), prints, lns, st') /\
    forall tr, execution (map (@op_of _) lns) tr -> shown prints (map snd tr) s = map (fun j => Some (expected_line n j)) (seq 0 (S k)).
Proof.
  intros lg red n q m k st s Hlg Hred Hn Hg Hd Hc Hm Hk.
  assert (W := @cg_test_wp lg red n q m k st s Hlg Hred Hn Hg (proj2 (disjoint_all_spec (part_pieces lg q)) Hd) (proj2 (is_complete_spec lg q) Hc) Hm Hk).
  destruct (@C78_prints_of_specified _ exact _ (cg_test exact lg red q m k) (fun y => cg_norms (snd y)) (fun _ => map (fun j => Some (expected_line n j)) (seq 0 (S k))) st s (fr_cg_test _ _ _ _ _ _))
    as [[sol c] [prints [lns [st' [E [_ H]]]]]].
  - eapply wp_conseq; [exact W|]. intros y st1 s1 [H _]. exact H.
  - exists sol, c, prints, lns, st'. split; [exact E|exact H].
Qed.
(** After k steps the solution vector holds, at distance d from the nearer end of the grid, the parabola up to k points from the end and is flat
    further inside; after half of n steps, rounded up, it is the exact solution x_i = (i+1)(n-i)/2 of the tridiagonal system with right-hand side 1. *)
Theorem C77_cg_tests_solution : forall lg red n q m k st s,
  legion_ok lg -> legal_reduction exact red -> 1 <= n -> grid_1d n (is_points lg (part_parent lg q)) -> partition_disjoint lg q -> partition_complete lg q ->
  laplacian_matrix n (part_parent lg q) m -> 2 * k <= n + 1 ->
  accepted (cg_test exact lg red q m k) st /\
  forall sol c st' s', ends (cg_test exact lg red q m k) st s (sol, c) st' s' -> forall i, i < n ->
    let t := Nat.min k (S (Nat.min i (n - 1 - i))) in
    s' (at_point sol [Z.of_nat i]) = Some (INR t * (INR n + 1 - INR t) / 2)%R /\
    (n <= 2 * k -> s' (at_point sol [Z.of_nat i]) = Some (INR (i + 1) * INR (n - i) / 2)%R).
Proof.
  intros lg red n q m k st s Hlg Hred Hn Hg Hd Hc Hm Hk.
  assert (W := @cg_test_wp lg red n q m k st s Hlg Hred Hn Hg (proj2 (disjoint_all_spec (part_pieces lg q)) Hd) (proj2 (is_complete_spec lg q) Hc) Hm Hk).
  split; [eapply wp_accepted; exact W|]. intros sol c st' s' He i Hi t. destruct (wp_ends W He) as [s1 [[_ H] E]]. specialize (H i Hi). cbn [fst] in H. rewrite E, H.
  unfold x_form, half, depth. fold t. split.
  - f_equal. lra.
  - intros L. f_equal. assert (Ht : t = S (Nat.min i (n - 1 - i))) by (unfold t; apply Nat.min_r; lia). rewrite Ht. clear Ht. rewrite S_INR, plus_INR, minus_INR by lia. change (INR 1) with 1%R.
    destruct (Nat.le_gt_cases i (n - 1 - i)).
    + rewrite Nat.min_l by assumption. field.
    + rewrite Nat.min_r by lia. rewrite !minus_INR by lia. change (INR 1) with 1%R. field.
Qed.
(** The values in /repo/test_all.py:110-113 (EXPECTED_CG_OUTPUT, there sorted as text): 100 points, 10 steps *)
Example C77_expected_output : map (fun j => Some (expected_line 100 j)) (seq 0 11) =
  map (fun z => Some (IZR z)) [100; 4900; 4704; 4512; 4324; 4140; 3960; 3784; 3612; 3444; 3280]%Z.
Proof.
  assert (F : forall j, (1 <= j)%nat -> (2 * j <= 100)%nat -> expected_line 100 j = (IZR ((100 - 2 * Z.of_nat j) * (102 - 2 * Z.of_nat j)) / 2)%R).
  { intros j H1 H2. destruct j as [|j]; [lia|]. unfold expected_line. destruct (Nat.leb_spec (2 * S j) 100); [|lia].
    rewrite !INR_IZR_INZ, <- mult_IZR. f_equal. apply (f_equal IZR). rewrite Nat2Z.inj_add, Nat2Z.inj_sub by lia. lia. }
  cbn [seq map]. assert (E0 : expected_line 100 0 = 100%R) by (unfold expected_line; rewrite INR_IZR_INZ; f_equal).
  assert (G : forall j z, (1 <= j)%nat -> (2 * j <= 100)%nat -> ((100 - 2 * Z.of_nat j) * (102 - 2 * Z.of_nat j) = 2 * z)%Z -> Some (expected_line 100 j) = Some (IZR z)).
  { intros j z H1 H2 H3. rewrite F, H3, mult_IZR by assumption. f_equal. lra. }
  rewrite E0. apply f_equal2; [reflexivity|]. repeat (apply f_equal2; [apply G; [lia|lia|reflexivity]|]). reflexivity.
Qed.

(** Test01: float and double compute exactly the value the test asserts; so does exact arithmetic *)
Theorem C77_scalar_test : forall st s env, (forall x, env x < next_fut st) ->
  forall fp fe, (fp, fe) = (24, 128)%Z \/ (fp, fe) = (53, 1024)%Z ->
  let lit k := SpecFloat.binary_normalize fp fe (Z.of_nat k) 0 false in
  accepted (issue_prog (ieee fp fe) env (scalar_test lit)) st /\
  forall env' st' s', ends (issue_prog (ieee fp fe) env (scalar_test lit)) st s env' st' s' -> s' (LFut (env' 4)) = lit 1.
Proof.
  intros st s env He fp fe H lit. destruct (@PropsScalar.C01_deferred_equals_direct _ (ieee fp fe) (scalar_test lit) env st s He) as [H1 H2]. split; [exact H1|].
  intros env' st' s' E. rewrite (H2 _ _ _ E). cbn [scalar_test direct_prog direct_exp st_var st_exp]. unfold set. cbn [Nat.eqb].
  destruct H as [H|H]; injection H as -> ->; vm_compute; reflexivity.
Qed.

(** the hypotheses are met: two points in two pieces, the COO matrix and the CSR matrix, one step: the lines are 2 and 0 and the solution is (1, 1) *)
Example C77_example : forall st s, exists cm, laplacian_matrix 2 (part_parent lg2 3) (CSR cm) /\
  let prog := cg_test exact lg2 (fun _ l => fold_right (aadd exact) (a0 exact) l) 3 (CSR cm) 1 in
  (exists sol c prints lns st', (let* y := prog in let* ns := print_in_order exact (cg_norms (snd y)) in ret (y, ns)) st = Ok ((sol, c), prints, lns, st') /\
    forall tr, execution (map (@op_of _) lns) tr -> shown prints (map snd tr) s = [Some 2%R; Some 0%R]) /\
  (exists sol c st' s', ends prog st s (sol, c) st' s' /\ s' (at_point sol [0%Z]) = Some 1%R /\ s' (at_point sol [1%Z]) = Some 1%R).
Proof.
  intros st s. destruct (laplacian_matrices_exist 2 (part_parent lg2 3)) as [_ [cm Hm]]. exists cm. split; [exact Hm|]. intros prog.
  assert (Hg : grid_1d 2 (is_points lg2 (part_parent lg2 3))).
  { intros p. cbn. split.
    - intros [<-|[<-|[]]]; [exists 0|exists 1]; split; auto.
    - intros [i [Hi ->]]. destruct i as [|[|i]]; [left|right; left|lia]; reflexivity. }
  assert (Hd : partition_disjoint lg2 3) by (exact (proj1 (disjoint_all_spec (part_pieces lg2 3)) eq_refl)).
  assert (Hc : partition_complete lg2 3) by (apply is_complete_spec; reflexivity).
  assert (Hr : legal_reduction exact (fun _ l => fold_right (aadd exact) (a0 exact) l)) by apply fold_right_legal.
  split.
  - destruct (@C77_cg_tests_print lg2 _ 2 3 (CSR cm) 1 st s lg2_ok Hr ltac:(lia) Hg Hd Hc Hm ltac:(lia)) as [sol [c [prints [lns [st' [E H]]]]]].
    exists sol, c, prints, lns, st'. split; [exact E|]. intros tr Ht. rewrite (H tr Ht). cbn [seq map]. unfold expected_line. cbn [Nat.mul Nat.add Nat.leb Nat.sub INR].
    repeat (apply f_equal2; [apply f_equal; lra|]). reflexivity.
  - destruct (@C77_cg_tests_solution lg2 _ 2 3 (CSR cm) 1 st s lg2_ok Hr ltac:(lia) Hg Hd Hc Hm ltac:(lia)) as [Ha H].
    destruct (@accepted_ends _ _ _ _ s Ha) as [[sol c] [st' [s' He]]]. exists sol, c, st', s'. split; [exact He|].
    destruct (H _ _ _ _ He 0 ltac:(lia)) as [_ H0]. destruct (H _ _ _ _ He 1 ltac:(lia)) as [_ H1]. specialize (H0 ltac:(lia)). specialize (H1 ltac:(lia)).
    cbn [Z.of_nat Pos.of_succ_nat Nat.add Nat.sub INR] in H0, H1. split; [rewrite H0|rewrite H1]; apply f_equal; lra.
Qed.

(** ** Test03 and Test04: the partitions derived from a partition of the rows of the 1-D Laplacian *)
Lemma laplacian_row_col T (A : arith T) n rows lg m : 1 <= n -> laplacian_matrix_in A n rows m -> grid_1d n (is_points lg rows) ->
  positions m = map (fun k => [Z.of_nat k]) (seq 0 (3 * n - 2)) /\
  (forall k i, k < 3 * n - 2 -> i < n -> in_row m [Z.of_nat i] [Z.of_nat k] = true <-> (k + 1) / 3 = i) /\
  (forall k, k < 3 * n - 2 -> PropsMatrix.column m [Z.of_nat k] = [(Z.of_nat k - 2 * Z.of_nat ((k + 1) / 3))%Z]) /\
  match m with COO _ => True | CSR c => rows = cs_rows c end.
Proof.
  intros Hn Hm Hg. destruct (laplacian_in_facts lg Hn Hm Hg) as (_ & Hrow & Hp & Hr & Hc & _). split; [exact Hp|]. split; [|split; [exact Hc|exact Hrow]].
  intros k i Hk Hi. rewrite (Hr k i Hk Hi). apply Nat.eqb_eq.
Qed.
(** For every partition of the rows: stored entry k belongs to the kernel piece whose range piece has row (k+1)/3 (rounded down), and the domain piece
    of a colour consists of the points of its range piece and their neighbours. *)
Theorem C77_laplacian_partitions : forall (T : Type) (A : arith T) lg n q (m : matrix T) domain,
  legion_ok lg -> 1 <= n -> grid_1d n (is_points lg (part_parent lg q)) -> grid_1d n (is_points lg domain) -> laplacian_matrix_in A n (part_parent lg q) m ->
  exists kps, kernel_from_range lg m q = Ok kps /\ length kps = length (part_pieces lg q) /\
    length (domain_from_kernel lg m domain kps) = length (part_pieces lg q) /\
    forall c piece kpiece dpiece, nth_error (part_pieces lg q) c = Some piece -> nth_error kps c = Some kpiece ->
      nth_error (domain_from_kernel lg m domain kps) c = Some dpiece ->
      (forall p, In p kpiece <-> exists k, k < 3 * n - 2 /\ p = [Z.of_nat k] /\ In [Z.of_nat ((k + 1) / 3)] piece) /\
      (forall p, In p dpiece <-> exists j, j < n /\ p = [Z.of_nat j] /\ exists i, i < n /\ In [Z.of_nat i] piece /\ (i = j \/ i = S j \/ S i = j)).
Proof.
  intros T A lg n q m domain Hlg Hn Hg Hgd Hm. destruct (@laplacian_row_col T A n _ lg m Hn Hm Hg) as [Hp [Hr [Hc Hrow]]].
  assert (Hsub : forall c piece p, nth_error (part_pieces lg q) c = Some piece -> In p piece -> exists i, i < n /\ p = [Z.of_nat i]).
  { intros c piece p Hpc Hin. apply Hg. apply (proj2 Hlg q piece (nth_error_In _ _ Hpc)); exact Hin. }
  set (ker := fun piece => filter (fun kp => existsb (fun r => in_row m r kp) piece) (positions m)).
  assert (E : kernel_from_range lg m q = Ok (map ker (part_pieces lg q))).
  { unfold kernel_from_range, ker. destruct m as [cm|cm].
    - unfold preimage. f_equal. apply map_ext. intros piece. cbn [positions]. apply filter_ext. intros kp. cbn [in_row]. unfold mem.
      destruct (in_dec point_eq_dec (co_row cm kp) piece) as [Hin|Hin].
      + symmetry. apply existsb_exists. exists (co_row cm kp). split; [exact Hin|]. destruct (point_eq_dec _ _); [reflexivity|contradiction].
      + symmetry. apply not_true_is_false. intros Hx. apply existsb_exists in Hx. destruct Hx as [r [H1 H2]]. destruct (point_eq_dec (co_row cm kp) r); [subst; contradiction|discriminate].
    - rewrite Hrow, Nat.eqb_refl. reflexivity. }
  set (dom := fun kpiece => filter (fun p => mem p (map (PropsMatrix.column m) kpiece)) (is_points lg domain)).
  assert (D : forall kps, domain_from_kernel lg m domain kps = map dom kps) by (intros kps; destruct m; reflexivity).
  exists (map ker (part_pieces lg q)). split; [exact E|]. split; [apply map_length|]. split; [rewrite D, !map_length; reflexivity|].
  intros c piece kpiece dpiece H1 H2 H3. rewrite D in H3. rewrite nth_error_map_some, H1 in H2. cbn in H2. injection H2 as <-.
  rewrite nth_error_map_some, nth_error_map_some, H1 in H3. cbn in H3. injection H3 as <-.
  assert (K : forall p, In p (ker piece) <-> exists k, k < 3 * n - 2 /\ p = [Z.of_nat k] /\ In [Z.of_nat ((k + 1) / 3)] piece).
  { intros p. unfold ker. rewrite filter_In, Hp, in_map_iff. split.
    - intros [[k [<- Hk]] Hx]. apply in_seq in Hk. apply existsb_exists in Hx. destruct Hx as [r [Hin Hx]]. destruct (Hsub c piece r H1 Hin) as [i [Hi ->]].
      apply Hr in Hx; [|lia|exact Hi]. exists k. split; [lia|]. split; [reflexivity|]. rewrite Hx. exact Hin.
    - intros [k [Hk [-> Hin]]]. split; [exists k; split; [reflexivity|apply in_seq; lia]|]. apply existsb_exists. eexists. split; [exact Hin|]. apply Hr; [exact Hk| |reflexivity].
      apply Nat.div_lt_upper_bound; lia. }
  split; [exact K|]. intros p. unfold dom. rewrite filter_In, mem_spec, in_map_iff. rewrite (Hgd p). split.
  - intros [[j [Hj ->]] [kp [Ec Hk]]]. apply K in Hk. destruct Hk as [k [Hk [-> Hin]]]. rewrite Hc in Ec by exact Hk. apply (f_equal (fun l => hd 0%Z l)) in Ec. cbn [hd] in Ec.
    exists j. split; [exact Hj|]. split; [reflexivity|]. destruct (Hsub c piece _ H1 Hin) as [i [Hi Ei]].
    assert (Ei' : (k + 1) / 3 = i) by (apply Nat2Z.inj; exact (f_equal (fun l => hd 0%Z l) Ei)). exists i. split; [exact Hi|]. rewrite Ei' in Hin, Ec. split; [exact Hin|].
    assert (Dm := Nat.div_mod (k + 1) 3 ltac:(lia)). rewrite Ei' in Dm. assert (Bm := Nat.mod_upper_bound (k + 1) 3 ltac:(lia)). lia.
  - intros [j [Hj [-> [i [Hi [Hin Hij]]]]]]. split; [exists j; auto|].
    assert (G : forall k, k < 3 * n - 2 -> (k + 1) / 3 = i -> k = j + 2 * i -> exists x, PropsMatrix.column m x = [Z.of_nat j] /\ In x (ker piece)).
    { intros k Hk Hd Ek. exists [Z.of_nat k]. split; [rewrite Hc, Hd by exact Hk; f_equal; lia|]. apply K. exists k. split; [exact Hk|]. split; [reflexivity|]. rewrite Hd. exact Hin. }
    destruct Hij as [Hij|[Hij|Hij]]; subst.
    + apply (G (3 * j)); [lia| |lia]. symmetry. apply (Nat.div_unique _ 3 j 1); lia.
    + apply (G (3 * S j - 1)); [lia| |lia]. symmetry. apply (Nat.div_unique _ 3 (S j) 0); lia.
    + apply (G (3 * i + 1)); [lia| |lia]. symmetry. apply (Nat.div_unique _ 3 i 2); lia.
Qed.
(** In particular for a block of rows a..b, as in the expected output of Test03 and Test04 (20 points: rows 5..9 own entries 14..28 and read points 4..10) *)
Theorem C77_block_partitions : forall (T : Type) (A : arith T) lg n q (m : matrix T) domain kps c a b kpiece dpiece,
  legion_ok lg -> 1 <= n -> grid_1d n (is_points lg (part_parent lg q)) -> grid_1d n (is_points lg domain) -> laplacian_matrix_in A n (part_parent lg q) m ->
  a <= b < n -> nth_error (part_pieces lg q) c = Some (map (fun i => [Z.of_nat i]) (seq a (S b - a))) ->
  kernel_from_range lg m q = Ok kps -> nth_error kps c = Some kpiece -> nth_error (domain_from_kernel lg m domain kps) c = Some dpiece ->
  (forall p, In p kpiece <-> exists k, 3 * a - 1 <= k <= Nat.min (3 * b + 1) (3 * n - 3) /\ p = [Z.of_nat k]) /\
  (forall p, In p dpiece <-> exists j, a - 1 <= j <= Nat.min (b + 1) (n - 1) /\ p = [Z.of_nat j]).
Proof.
  intros T A lg n q m domain kps c a b kpiece dpiece Hlg Hn Hg Hgd Hm Hab H1 Hk H2 H3.
  destruct (@C77_laplacian_partitions T A lg n q m domain Hlg Hn Hg Hgd Hm) as [kps' [E [_ [_ H]]]]. rewrite Hk in E. injection E as <-.
  assert (B : forall i, In [Z.of_nat i] (map (fun i => [Z.of_nat i]) (seq a (S b - a))) <-> a <= i <= b).
  { intros i. rewrite in_map_iff. split.
    - intros [x [Ex Hx]]. injection Ex as Ex. apply in_seq in Hx. lia.
    - intros Hi. exists i. split; [reflexivity|apply in_seq; lia]. }
  destruct (H c _ _ _ H1 H2 H3) as [K D]. split; intros p; rewrite ?K, ?D; clear K D.
  - split.
    + intros [k [L [-> Hin]]]. apply B in Hin. exists k. split; [|reflexivity]. assert (Dm := Nat.div_mod (k + 1) 3 ltac:(lia)). assert (Bm := Nat.mod_upper_bound (k + 1) 3 ltac:(lia)). lia.
    + intros [k [L ->]]. exists k. split; [lia|]. split; [reflexivity|]. apply B. assert (Dm := Nat.div_mod (k + 1) 3 ltac:(lia)). assert (Bm := Nat.mod_upper_bound (k + 1) 3 ltac:(lia)). lia.
  - split.
    + intros [j [L [-> [i [Hi [Hin Hij]]]]]]. apply B in Hin. exists j. split; [lia|reflexivity].
    + intros [j [L ->]]. exists j. split; [lia|]. split; [reflexivity|].
      destruct (Nat.le_gt_cases j b) as [L1|L1]; [destruct (Nat.le_gt_cases a j) as [L2|L2]|].
      * exists j. split; [lia|]. split; [apply B; lia|lia].
      * exists (S j). split; [lia|]. split; [apply B; lia|lia].
      * exists b. split; [lia|]. split; [apply B; lia|lia].
Qed.
