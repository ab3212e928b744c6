(** PropsFloatTests: property C82 (the text the project's CG tests print in double precision, rounding included). *)
From Coq Require Import Reals Lra Lia ZArith.
From Coq Require Import Floats.SpecFloat.
From Verif Require Import Base Index IndexFacts Outcome Sched Async Arith Launch Vector PartitionSpec VectorFacts LaunchFacts Matrix MatrixSpec MatrixFacts
  MatvecFacts Builder BuilderFacts Exec ExactSum LinAlg Planner PlannerFacts PlannerSetup Solvers PropsVector PropsMatrix PropsPlanner
  PropsSolver SolverFacts.
From Verif Require StencilFill StencilFillFacts.
From Verif Require Import ExampleSystems PropsExample PropsLaplacian LaplacianCG LaplacianStep LaplacianRow Float FloatSum PropsFloat FloatPlanner FloatCGSpec PropsFloatCG FloatCGBits FloatLaplacian FloatLaplacianRun.
From Verif Require Import FreshFacts FreshOps PrintScalar PropsPrintScalar VectorProg TestPrograms PropsTests.
Set Implicit Arguments.
Local Open Scope R_scope.

(** ** Specification *)
(** What "std::cout << x" shows with the default precision of six significant digits (printf's %g), for a value that rounds to the integer [z]: with e the
    decimal exponent of [x], the digits shown are those of the multiple of 10^(e-5) nearest to [x], and that multiple is [z]. *)
Definition shows_six (x : R) (z : Z) : Prop := exists e : Z, (e <= 5)%Z /\ powerRZ 10 e <= Rabs x < powerRZ 10 (e + 1) /\ Rabs (x - IZR z) < powerRZ 10 (e - 5) / 2.
(** /repo/test_all.py:130-133, EXPECTED_CG_OUTPUT, in program order *)
Definition expected_text : list Z := [100; 4900; 4704; 4512; 4324; 4140; 3960; 3784; 3612; 3444; 3280]%Z.

Lemma pow10_lt a b : (a < b)%Z -> powerRZ 10 a < powerRZ 10 b.
Proof.
  intros H. replace b with (a + (b - a))%Z by ring. rewrite powerRZ_add by lra. assert (P : 0 < powerRZ 10 a) by (apply powerRZ_lt; lra).
  assert (Q : 1 < powerRZ 10 (b - a)). { destruct (b - a)%Z as [|p|p] eqn:E; try lia. cbn [powerRZ]. apply Rlt_pow_R1; [lra|]. apply Pos2Nat.is_pos. }
  nra.
Qed.
(** [z] is the six-digit decimal nearest to [x], and the only one *)
Lemma C82_six_digits x z : shows_six x z -> forall e n, powerRZ 10 e <= Rabs x < powerRZ 10 (e + 1) -> IZR n * powerRZ 10 (e - 5) <> IZR z -> Rabs (x - IZR z) < Rabs (x - IZR n * powerRZ 10 (e - 5)).
Proof.
  intros (e0 & H1 & H2 & H3) e n He Hn.
  assert (E : e = e0).
  { destruct (Z.lt_trichotomy e e0) as [L|[L|L]]; [|exact L|]; exfalso.
    - assert (K : powerRZ 10 (e + 1) <= powerRZ 10 e0) by (destruct (Z.eq_dec (e + 1) e0) as [-> |N]; [lra|left; apply pow10_lt; lia]). lra.
    - assert (K : powerRZ 10 (e0 + 1) <= powerRZ 10 e) by (destruct (Z.eq_dec (e0 + 1) e) as [-> |N]; [lra|left; apply pow10_lt; lia]). lra. }
  subst e0. set (d := powerRZ 10 (e - 5)) in *. assert (P : 0 < d) by (apply powerRZ_lt; lra).
  (* z is a multiple of d *)
  assert (M : exists k, IZR z = IZR k * d).
  { exists (z * 10 ^ (5 - e))%Z. rewrite mult_IZR. rewrite Rmult_assoc. rewrite <- (Rmult_1_r (IZR z)) at 1. f_equal. unfold d. replace (10 ^ (5 - e))%Z with (10 ^ (Z.of_nat (Z.to_nat (5 - e))))%Z by (f_equal; lia).
    rewrite <- pow_IZR, pow_powerRZ, <- powerRZ_add by lra. replace (Z.of_nat (Z.to_nat (5 - e)) + (e - 5))%Z with 0%Z by lia. reflexivity. }
  destruct M as [k Hk]. rewrite Hk in *. assert (Nk : n <> k) by congruence.
  assert (G : d <= Rabs (IZR n * d - IZR k * d)).
  { rewrite <- Rmult_minus_distr_r, <- minus_IZR, Rabs_mult, (Rabs_pos_eq d) by lra. rewrite <- abs_IZR. assert (1 <= IZR (Z.abs (n - k))) by (apply IZR_le; lia). nra. }
  assert (T : Rabs (IZR n * d - IZR k * d) <= Rabs (x - IZR k * d) + Rabs (x - IZR n * d)).
  { replace (IZR n * d - IZR k * d) with ((x - IZR k * d) + - (x - IZR n * d)) by ring. eapply Rle_trans; [apply Rabs_triang|]. rewrite Rabs_Ropp. lra. }
  lra.
Qed.
Lemma to1 : Pos.to_nat 1 = 1%nat. Proof. reflexivity. Qed.
Lemma to2 : Pos.to_nat 2 = 2%nat. Proof. reflexivity. Qed.
Lemma to3 : Pos.to_nat 3 = 3%nat. Proof. reflexivity. Qed.
Lemma to4 : Pos.to_nat 4 = 4%nat. Proof. reflexivity. Qed.
Lemma p10_1 : powerRZ 10 1 = 10. Proof. unfold powerRZ; rewrite ?to1, ?to2, ?to3, ?to4; cbn [pow]; lra. Qed.
Lemma p10_2 : powerRZ 10 (1 + 1) = 100. Proof. change (1+1)%Z with 2%Z. unfold powerRZ; rewrite ?to1, ?to2, ?to3, ?to4; cbn [pow]; lra. Qed.
Lemma p10_2' : powerRZ 10 2 = 100. Proof. unfold powerRZ; rewrite ?to1, ?to2, ?to3, ?to4; cbn [pow]; lra. Qed.
Lemma p10_3 : powerRZ 10 (2 + 1) = 1000. Proof. change (2+1)%Z with 3%Z. unfold powerRZ; rewrite ?to1, ?to2, ?to3, ?to4; cbn [pow]; lra. Qed.
Lemma p10_3' : powerRZ 10 3 = 1000. Proof. unfold powerRZ; rewrite ?to1, ?to2, ?to3, ?to4; cbn [pow]; lra. Qed.
Lemma p10_4 : powerRZ 10 (3 + 1) = 10000. Proof. change (3+1)%Z with 4%Z. unfold powerRZ; rewrite ?to1, ?to2, ?to3, ?to4; cbn [pow]; lra. Qed.
Lemma p10_m4 : powerRZ 10 (1 - 5) = / 10000. Proof. change (1-5)%Z with (-4)%Z. unfold powerRZ; rewrite ?to1, ?to2, ?to3, ?to4; cbn [pow]; f_equal; lra. Qed.
Lemma p10_m3 : powerRZ 10 (2 - 5) = / 1000. Proof. change (2-5)%Z with (-3)%Z. unfold powerRZ; rewrite ?to1, ?to2, ?to3, ?to4; cbn [pow]; f_equal; lra. Qed.
Lemma p10_m2 : powerRZ 10 (3 - 5) = / 100. Proof. change (3-5)%Z with (-2)%Z. unfold powerRZ; rewrite ?to1, ?to2, ?to3, ?to4; cbn [pow]; f_equal; lra. Qed.
Lemma shows_100 x : Rabs (x - 100) <= 2/1000000000000 -> shows_six x 100.
Proof.
  intros H. apply LaplacianRounding.Rabs_le_inv in H. destruct (Rle_or_lt 100 x) as [L|L].
  - exists 2%Z. split; [lia|]. rewrite Rabs_pos_eq by lra. rewrite ?p10_1, ?p10_2, ?p10_2', ?p10_3, ?p10_3', ?p10_4, ?p10_m2, ?p10_m3, ?p10_m4. split; [lra|]. apply Rabs_def1; lra.
  - exists 1%Z. split; [lia|]. rewrite Rabs_pos_eq by lra. rewrite ?p10_1, ?p10_2, ?p10_2', ?p10_3, ?p10_3', ?p10_4, ?p10_m2, ?p10_m3, ?p10_m4. split; [lra|]. apply Rabs_def1; lra.
Qed.
Lemma shows_thousands x z : (1001 <= z <= 9998)%Z -> Rabs (x - IZR z) <= 3/10000 -> shows_six x z.
Proof.
  intros Hz H. assert (Z1 : 1001 <= IZR z <= 9998) by (split; apply IZR_le; lia). exists 3%Z. split; [lia|]. pose proof H as H'. apply LaplacianRounding.Rabs_le_inv in H. rewrite Rabs_pos_eq by lra.
  rewrite ?p10_1, ?p10_2, ?p10_2', ?p10_3, ?p10_3', ?p10_4, ?p10_m2, ?p10_m3, ?p10_m4. split; [lra|]. apply Rabs_def1; lra.
Qed.

(** ** The run *)
Lemma format64 : format 53 1024.
Proof. split; reflexivity. Qed.
Lemma run_norms lg v w m k (t : nat -> fiterate unknown) x0 :
  laplacian_matrix_in A 100 (pv_space v) m -> grid_1d 100 (is_points lg (pv_space v)) -> Permutation (unknowns lg (system v w m)) (map (fun i => (0%nat, [Z.of_nat i])) (seq 0 100)) ->
  (k <= 10)%nat -> bit_start 53 1024 lg (system v w m) x0 (fun _ => one) (t 0%nat) -> (forall j, (j < k)%nat -> bit_step 53 1024 lg (system v w m) (t j) (t (S j))) ->
  forall j, (j <= k)%nat -> binv j (t j) /\ Rabs (fvalue (f_rho (t j)) - IZR (nth j expected_text 0%Z)) <= 3/10000 /\ shows_six (fvalue (f_rho (t j))) (nth j expected_text 0%Z).
Proof.
  intros Hm Hg HU Hk H0 HS. induction j as [|j IH]; intros Hj.
  - destruct (binv_start HU H0) as [B E]. split; [exact B|]. cbn [nth expected_text]. split; [lra|]. apply shows_100. exact E.
  - destruct (IH ltac:(lia)) as [B _]. destruct (@binv_step lg v w m Hm Hg HU j (t j) (t (S j)) ltac:(lia) B (HS j ltac:(lia))) as [B' E]. split; [exact B'|].
    assert (Ez : 2 * ((50 - INR j - 1) * (50 - INR j - 1) + (50 - INR j - 1)) = IZR (nth (S j) expected_text 0%Z) /\ (1001 <= nth (S j) expected_text 0%Z <= 9998)%Z).
    { assert (Hj' : (j <= 9)%nat) by lia. clear - Hj'. do 10 (destruct j as [|j]; [cbn [nth expected_text INR]; split; [lra|lia]|]). lia. }
    destruct Ez as [Ez Rz]. rewrite Ez in E. split; [exact E|]. apply shows_thousands; [exact Rz|exact E].
Qed.
Lemma unknowns_perm n lg (v w : pvec) (m : matrix spec_float) : NoDup (is_points lg (pv_space v)) -> grid_1d n (is_points lg (pv_space v)) -> Permutation (unknowns lg (system v w m)) (map (fun i => (0%nat, [Z.of_nat i])) (seq 0 n)).
Proof.
  intros Hn Hg. unfold unknowns. cbn [system sols_of flat_map app length seq space_of nth]. rewrite app_nil_r. rewrite <- (map_map (fun i => [Z.of_nat i]) (pair 0%nat)). apply Permutation_map.
  apply grid_1d_perm; assumption.
Qed.
Lemma cg_test_double_wp lg red q m k st s :
  legion_ok lg -> legal_reduction A red -> grid_1d 100 (is_points lg (part_parent lg q)) -> is_disjoint lg q = true -> is_complete lg q = true ->
  laplacian_matrix_in A 100 (part_parent lg q) m -> (k <= 10)%nat ->
  wp (cg_test A lg red q m k) (fun y st1 s1 =>
    (forall f, In f (cg_norms (snd y)) -> (f < next_fut st1)%nat) /\
    Forall2 (fun x z => is_number x /\ Rabs (fvalue x - IZR z) <= 3/10000 /\ shows_six (fvalue x) z) (map (fun f => s1 (LFut f)) (cg_norms (snd y))) (firstn (S k) expected_text)) st s.
Proof.
  intros Hlg Hred Hg Hd Hc Hm Hk. unfold cg_test. apply wp_bind. apply wp_new_vector; [exact Hd|exact Hc|]. set (w := mk_pvec _ _ _ _ _). intros v0 Hw. subst v0. fold w in Hw.
  apply wp_bind. change (issue (constant_fill lg w (a1 A))) with (issue (call A lg w (Fill (a1 A)))).
  eapply wp_call; [exact Hlg|exact Hw|reflexivity|]. intros s1 E1 F1.
  apply wp_bind. apply wp_new_vector; [exact Hd|exact Hc|]. set (v := mk_pvec _ _ _ _ _). intros v0 Hv. subst v0. fold v in Hv.
  apply wp_bind. change (issue (zero_fill A lg v)) with (issue (call A lg v ZeroFill)).
  eapply wp_call; [exact Hlg|exact Hv|reflexivity|]. intros s2 E2 F2. cbn [next_fut next_region] in *.
  set (st2 := mk_ist _ _). assert (Nvw : pv_region v <> pv_region w) by (unfold v, w; cbn; lia).
  destruct (@laplacian_in_facts _ A 100 (pv_space v) lg m ltac:(lia) Hm Hg) as [G1 [G2 _]].
  destruct (@system_set_up _ lg v w m st2 Hv Hw eq_refl eq_refl) as [pl0 Hs]; [unfold storage; congruence|unfold v, st2; cbn; lia|unfold w, st2; cbn; lia|exact G1|destruct m; [exact I|exact G2]|].
  apply wp_bind. eapply wp_lift; [exact (proj2 Hs)|]. set (cs := system v w m) in *.
  assert (HU : Permutation (unknowns lg cs) (map (fun i => (0%nat, [Z.of_nat i])) (seq 0 100))).
  { apply unknowns_perm; [apply Hlg|exact Hg]. }
  assert (Hx : vectors_contain lg s2 (sols_of cs) (fun _ => a0 A)).
  { intros i v' p Hi Hp. cbn in Hi. destruct i as [|[|i]]; try discriminate. injection Hi as <-. specialize (E2 p Hp). inversion E2. reflexivity. }
  assert (Hb : vectors_contain lg s2 (rhss_of cs) (fun _ => a1 A)).
  { intros i v' p Hi Hp. cbn in Hi. destruct i as [|[|i]]; try discriminate. injection Hi as <-. rewrite F2.
    - specialize (E1 p Hp). inversion E1. reflexivity.
    - intros p' _ E. unfold at_point in E. injection E as E _. unfold v in E. cbn in E. lia. }
  apply wp_bind. eapply wp_conseq; [apply (@bcg_run_inv 53 1024 format64 lg Hlg red Hred cs ltac:(cbn; lia) (fun _ => a0 A) (fun _ => a1 A) st2 pl0 s2 k Hs Hx Hb)|].
  intros c st' s' [_ _ HL HN (t & T1 & T2 & _ & T6)]. apply wp_ret. cbn [fst snd]. split.
  - intros f Hf. apply In_nth_error in Hf. destruct Hf as [j Hj]. apply (HN j f Hj).
  - assert (HF : length (firstn (S k) expected_text) = S k) by (rewrite firstn_length; cbn [length expected_text]; lia).
    assert (G : forall (l : list nat) (l2 : list Z), length l = length l2 -> (forall j f z, nth_error l j = Some f -> nth_error l2 j = Some z -> is_number (s' (LFut f)) /\ Rabs (fvalue (s' (LFut f)) - IZR z) <= 3/10000 /\ shows_six (fvalue (s' (LFut f))) z) ->
      Forall2 (fun x z => is_number x /\ Rabs (fvalue x - IZR z) <= 3/10000 /\ shows_six (fvalue x) z) (map (fun f => s' (LFut f)) l) l2).
    { induction l as [|f l IH]; intros [|z l2] E H; try discriminate; cbn [map]; constructor; [exact (H 0%nat f z eq_refl eq_refl)|]. apply IH; [injection E as E; exact E|]. intros j g y Hg' Hy. exact (H (S j) g y Hg' Hy). }
    apply G; [rewrite HL, HF; reflexivity|]. intros j f z Hf Hz.
    assert (Hj : (j <= k)%nat) by (assert (j < length (cg_norms c))%nat by (apply nth_error_Some; congruence); lia).
    assert (Ez : nth j expected_text 0%Z = z).
    { rewrite <- (firstn_skipn (S k) expected_text), app_nth1 by lia. apply nth_error_nth. exact Hz. }
    rewrite (T6 j f Hf). destruct (@run_norms lg v w m k t (fun _ => a0 A) Hm Hg HU Hk T1 T2 j Hj) as (B & B1 & B2). rewrite Ez in B1, B2. split; [apply (bv_rho B)|]. split; assumption.
Qed.

(** ** C82.  In double precision, for every partition of the 100 points, schedule and order of every reduction, and COO or CSR storage, the tests' programs
    print in this order finite numbers that are shown as 100, 4900, 4704, 4512, 4324, 4140, 3960, 3784, 3612, 3444, 3280 - the text test_all.py expects. *)
Theorem C82_cg_tests_print_in_double : forall lg red q m k st s,
  legion_ok lg -> legal_reduction binary64 red -> grid_1d 100 (is_points lg (part_parent lg q)) -> partition_disjoint lg q -> partition_complete lg q ->
  laplacian_matrix_in binary64 100 (part_parent lg q) m -> (k <= 10)%nat ->
  exists sol c prints lns st',
    (let* y := cg_test binary64 lg red q m k in let* ns := print_in_order binary64 (cg_norms (snd y)) in ret (y, ns)) st = Ok ((sol, c), prints, lns, st') /\
    forall tr, execution (map (@op_of _) lns) tr ->
      Forall2 (fun x z => is_number x /\ Rabs (fvalue x - IZR z) <= 3/10000 /\ shows_six (fvalue x) z) (shown prints (map snd tr) s) (firstn (S k) expected_text).
Proof.
  intros lg red q m k st s Hlg Hred Hg Hd Hc Hm Hk.
  assert (W := @cg_test_double_wp lg red q m k st s Hlg Hred Hg (proj2 (disjoint_all_spec (part_pieces lg q)) Hd) (proj2 (is_complete_spec lg q) Hc) Hm Hk).
  destruct W as [x [l1 [st1 [Em [Hg1 [W1 W2]]]]]].
  destruct (@C78_prints_of_specified _ binary64 _ (cg_test binary64 lg red q m k) (fun y => cg_norms (snd y)) (fun _ => map (fun f => effect l1 s (LFut f)) (cg_norms (snd x))) st s (fr_cg_test _ _ _ _ _ _))
    as [[sol c] [prints [lns [st' [E [_ H]]]]]].
  - exists x, l1, st1. split; [exact Em|]. split; [exact Hg1|]. split; [exact W1|reflexivity].
  - exists sol, c, prints, lns, st'. split; [exact E|]. intros tr Ht. rewrite (H tr Ht). exact W2.
Qed.

(** ** A concrete case: the 100 points in 4 pieces of 25, COO and CSR matrices, results added from the right *)
Definition pts (a n : nat) : list point := map (fun i => [Z.of_nat i]) (seq a n).
Definition lg100 : legion := mk_legion (fun s => if (s =? 1)%nat then pts 0 100 else []) (fun q => if (q =? 2)%nat then 1%nat else 0%nat)
  (fun q => q) (fun q => if (q =? 2)%nat then [pts 0 25; pts 25 25; pts 50 25; pts 75 25] else []).
Lemma pts_in a n p : In p (pts a n) <-> exists i, (a <= i < a + n)%nat /\ p = [Z.of_nat i].
Proof.
  unfold pts. rewrite in_map_iff. split; [intros [i [<- Hi]]|intros [i [Hi ->]]]; exists i.
  - apply in_seq in Hi. split; [lia|reflexivity].
  - split; [reflexivity|]. apply in_seq. lia.
Qed.
Lemma pts_nodup a n : NoDup (pts a n).
Proof. apply FinFun.Injective_map_NoDup; [intros x y E; injection E as E; lia|apply seq_NoDup]. Qed.
Lemma pts_incl a n b k : (b <= a)%nat -> (a + n <= b + k)%nat -> incl (pts a n) (pts b k).
Proof. intros H1 H2 p Hp. apply pts_in in Hp. destruct Hp as [i [Hi ->]]. apply pts_in. exists i. split; [lia|reflexivity]. Qed.
Lemma lg100_ok : legion_ok lg100.
Proof.
  split.
  - intros s. unfold lg100. cbn [is_points]. destruct (s =? 1)%nat; [apply pts_nodup|constructor].
  - intros q piece. unfold lg100. cbn [is_points part_pieces part_parent]. destruct (q =? 2)%nat; [|intros []]. cbn [Nat.eqb In].
    intros [<-|[<-|[<-|[<-|[]]]]]; (split; [apply pts_nodup|apply pts_incl; lia]).
Qed.
Lemma lg100_grid : grid_1d 100 (is_points lg100 (part_parent lg100 2)).
Proof. intros p. unfold lg100. cbn [is_points part_parent Nat.eqb]. rewrite pts_in. split; intros [i [Hi E]]; exists i; (split; [lia|exact E]). Qed.
Lemma laplacian_in_exist {T} (B : arith T) n rows : (exists c, laplacian_matrix_in B n rows (COO c)) /\ (exists c, laplacian_matrix_in B n rows (CSR c)).
Proof.
  split.
  - eexists. eapply (@laplacian_in_coo _ B n rows _ _ (fun _ => StencilFill.CRect 0 0)). split; [apply one_piece|apply interleave_concat].
  - eexists. eapply (@laplacian_in_csr _ B n rows _ _ _ (fun _ => StencilFill.CRect 0 0)). split; [apply one_piece|]. split; [apply one_piece|apply interleave_concat].
Qed.
Lemma C82_example : forall st s, exists co cs, laplacian_matrix_in binary64 100 (part_parent lg100 2) (COO co) /\ laplacian_matrix_in binary64 100 (part_parent lg100 2) (CSR cs) /\
  forall m, m = COO co \/ m = CSR cs -> exists sol c prints lns st',
    (let* y := cg_test binary64 lg100 (fun _ l => fold_right (aadd binary64) (a0 binary64) l) 2 m 10 in let* ns := print_in_order binary64 (cg_norms (snd y)) in ret (y, ns)) st = Ok ((sol, c), prints, lns, st') /\
    (exists tr, execution (map (@op_of _) lns) tr) /\
    forall tr, execution (map (@op_of _) lns) tr ->
      Forall2 (fun x z => is_number x /\ shows_six (fvalue x) z) (shown prints (map snd tr) s) [100; 4900; 4704; 4512; 4324; 4140; 3960; 3784; 3612; 3444; 3280]%Z.
Proof.
  intros st s. destruct (laplacian_in_exist binary64 100 (part_parent lg100 2)) as [[co H1] [cs H2]]. exists co, cs. split; [exact H1|]. split; [exact H2|]. intros m Hm.
  assert (Hm' : laplacian_matrix_in binary64 100 (part_parent lg100 2) m) by (destruct Hm as [-> | ->]; assumption). clear Hm H1 H2.
  assert (Hd : partition_disjoint lg100 2).
  { intros c d pc pd p. unfold lg100. cbn [part_pieces Nat.eqb]. intros Hc Hd Pc Pd.
    do 4 (destruct c as [|c]; [injection Hc as <-; apply pts_in in Pc; destruct Pc as [i [Hi ->]]; do 4 (destruct d as [|d]; [injection Hd as <-; apply pts_in in Pd; destruct Pd as [j [Hj Ej]]; injection Ej as Ej; lia|]); destruct d; discriminate|]); destruct c; discriminate. }
  assert (Hc : partition_complete lg100 2).
  { intros p. unfold lg100. cbn [part_pieces part_parent is_points Nat.eqb]. intros Hp. apply pts_in in Hp. destruct Hp as [i [Hi ->]].
    destruct (Nat.lt_ge_cases i 25); [exists (pts 0 25)|destruct (Nat.lt_ge_cases i 50); [exists (pts 25 25)|destruct (Nat.lt_ge_cases i 75); [exists (pts 50 25)|exists (pts 75 25)]]];
      (split; [cbn [In]; tauto|apply pts_in; exists i; split; [lia|reflexivity]]). }
  destruct (@C82_cg_tests_print_in_double lg100 (fun _ l => fold_right (aadd binary64) (a0 binary64) l) 2 m 10 st s lg100_ok (fold_right_legal _) lg100_grid Hd Hc Hm' ltac:(lia)) as [sol [c [prints [lns [st' [E H]]]]]].
  exists sol, c, prints, lns, st'. split; [exact E|]. split; [apply execution_exists|]. intros tr Ht. specialize (H tr Ht). cbn [firstn expected_text] in H. clear - H. induction H as [|x z l l' [K1 [_ K2]] H IH]; constructor; [split; assumption|exact IH].
Qed.
