(** PropsBenchAll: property C91: the benchmark scripts /repo/bench_all.py and /repo/bench_all_ls.py give the three benchmark programs comparable problems. *)
From Coq Require Import Reals String Ascii DecimalString DecimalPos DecimalZ.
From Verif Require Import Base Index IndexSpec Outcome Sched Launch StencilSpec PropsStencilCG Benchmark BenchmarkProgram.
From Verif Require Import StencilFill StencilFillFacts StencilLaunch StencilCreate PropsStencil Peers PropsPeers TestAll BenchAll.
From Coq Require Import List ZArith Bool Lia Permutation.
Import ListNotations.
Set Implicit Arguments.
Local Open Scope string_scope.
Local Open Scope list_scope.
Local Open Scope Z_scope.

(** ** Specification *)
(** the k-th problem size (from 0) a generator yields *)
Definition kth_size (i : iterator) (k : nat) : problem_size := yields i (Nat.iter k (resume i) (start_iterator i)).
(** ... which is to be: powers of two, the extents doubled in turn *)
Definition intended_size (i : iterator) (k : nat) : problem_size :=
  let k := Z.of_nat k in
  match i with
  | Iter1 => Size1 (2 ^ (12 + k))
  | Iter2 => Size2 (2 ^ (6 + (k + 1) / 2)) (2 ^ (6 + k / 2))
  | Iter3 => Size3 (2 ^ (4 + (k + 2) / 3)) (2 ^ (4 + (k + 1) / 3)) (2 ^ (4 + k / 3))
  end.
(** the number of grid points *)
Definition grid_points (s : problem_size) : Z := match s with Size1 nx => nx | Size2 nx ny => nx * ny | Size3 nx ny nz => nx * ny * nz end.
(** the extents, 1 where there is none *)
Definition extents (s : problem_size) : Z * Z * Z := match s with Size1 nx => (nx, 1, 1) | Size2 nx ny => (nx, ny, 1) | Size3 nx ny nz => (nx, ny, nz) end.
(** the four matrices and the three methods, as the scripts call them *)
Definition sizes_of (t : laplacian) : iterator := match t with LAPLACIAN_1D_3POINT => Iter1 | LAPLACIAN_2D_5POINT => Iter2 | _ => Iter3 end.
Definition peer_name (t : laplacian) : string :=
  match t with LAPLACIAN_1D_3POINT => "1D" | LAPLACIAN_2D_5POINT => "2D" | LAPLACIAN_3D_7POINT => "3D" | LAPLACIAN_3D_27POINT => "3D27" end.
Definition legion_name (t : laplacian) : string :=
  match t with LAPLACIAN_1D_3POINT => "1" | LAPLACIAN_2D_5POINT => "2" | LAPLACIAN_3D_7POINT => "3" | LAPLACIAN_3D_27POINT => "4" end.
Inductive method := CG | BICGSTAB | GMRES.
Definition petsc_method (m : method) : string := match m with CG => "cg" | BICGSTAB => "bcgs" | GMRES => "gmres" end.
Definition trilinos_method (m : method) : string := match m with CG => "CG" | BICGSTAB => "BiCGStab" | GMRES => "GMRES" end.
Definition trilinos_class (m : method) : trilinos_solver := match m with CG => T_CG | BICGSTAB => T_BICGSTAB | GMRES => T_GMRES end.
Definition legion_method (m : method) : string := match m with CG => "1" | BICGSTAB => "2" | GMRES => "3" end.
(** -solver 1, 2, 3 of the LegionSolvers benchmark *)
Definition legion_code (m : method) : Z := match m with CG => 1 | BICGSTAB => 2 | GMRES => 3 end.

(** ** Problem sizes *)
Lemma iter_S {A} (f : A -> A) k x : Nat.iter (S k) f x = f (Nat.iter k f x).
Proof. reflexivity. Qed.
Lemma generator_1 k : let g := Nat.iter k (resume Iter1) (start_iterator Iter1) in g_nx g = 2 ^ (12 + Z.of_nat k).
Proof.
  induction k as [|k IH]; [reflexivity|]. cbv zeta in *. rewrite iter_S. set (g := Nat.iter k _ _) in *. cbn [resume g_nx]. rewrite IH.
  replace (12 + Z.of_nat (S k)) with (Z.succ (12 + Z.of_nat k)) by lia. rewrite Z.pow_succ_r by lia. lia.
Qed.
Lemma pow_double a : 0 <= a -> 2 ^ a * 2 = 2 ^ (a + 1).
Proof. intros H. replace (a + 1) with (Z.succ a) by lia. rewrite Z.pow_succ_r by lia. lia. Qed.
Lemma generator_2 k : let g := Nat.iter k (resume Iter2) (start_iterator Iter2) in
  g_phase g = (k mod 2)%nat /\ g_nx g = 2 ^ (6 + (Z.of_nat k + 1) / 2) /\ g_ny g = 2 ^ (6 + Z.of_nat k / 2).
Proof.
  induction k as [|k IH]; [repeat split|]. cbv zeta in *. rewrite iter_S. set (g := Nat.iter k _ _) in *. destruct IH as (P & X & Y).
  unfold resume. rewrite P.
  pose proof (Nat.div_mod_eq k 2) as D. pose proof (Nat.mod_upper_bound k 2 ltac:(lia)) as B.
  set (q := (k / 2)%nat) in *. set (r := (k mod 2)%nat) in *. clearbody g q r. subst k.
  assert (r = 0 \/ r = 1)%nat as [-> | ->] by lia; cbn [g_phase g_nx g_ny]; rewrite ?X, ?Y, pow_double by (apply Z.add_nonneg_nonneg; [lia|apply Z.div_pos; lia]);
    rewrite ?Nat2Z.inj_succ, ?Nat2Z.inj_add, ?Nat2Z.inj_mul; change (Z.of_nat 2) with 2; change (Z.of_nat 1) with 1; change (Z.of_nat 0) with 0.
  - split; [|split].
    + replace (S (2 * q + 0)) with (1 + q * 2)%nat by lia. now rewrite Nat.mod_add by lia.
    + f_equal. Z.div_mod_to_equations; lia.
    + f_equal. Z.div_mod_to_equations; lia.
  - split; [|split].
    + replace (S (2 * q + 1)) with (0 + (q + 1) * 2)%nat by lia. now rewrite Nat.mod_add by lia.
    + f_equal. Z.div_mod_to_equations; lia.
    + f_equal. Z.div_mod_to_equations; lia.
Qed.
Lemma generator_3 k : let g := Nat.iter k (resume Iter3) (start_iterator Iter3) in
  g_phase g = (k mod 3)%nat /\ g_nx g = 2 ^ (4 + (Z.of_nat k + 2) / 3) /\ g_ny g = 2 ^ (4 + (Z.of_nat k + 1) / 3) /\ g_nz g = 2 ^ (4 + Z.of_nat k / 3).
Proof.
  induction k as [|k IH]; [repeat split|]. cbv zeta in *. rewrite iter_S. set (g := Nat.iter k _ _) in *. destruct IH as (P & X & Y & W).
  unfold resume. rewrite P.
  pose proof (Nat.div_mod_eq k 3) as D. pose proof (Nat.mod_upper_bound k 3 ltac:(lia)) as B.
  set (q := (k / 3)%nat) in *. set (r := (k mod 3)%nat) in *. clearbody g q r. subst k.
  assert (r = 0 \/ r = 1 \/ r = 2)%nat as [-> |[-> | ->]] by lia; cbn [g_phase g_nx g_ny g_nz]; rewrite ?X, ?Y, ?W, pow_double by (apply Z.add_nonneg_nonneg; [lia|apply Z.div_pos; lia]);
    rewrite ?Nat2Z.inj_succ, ?Nat2Z.inj_add, ?Nat2Z.inj_mul; change (Z.of_nat 3) with 3; change (Z.of_nat 2) with 2; change (Z.of_nat 1) with 1; change (Z.of_nat 0) with 0.
  - split; [replace (S (3 * q + 0)) with (1 + q * 3)%nat by lia; now rewrite Nat.mod_add by lia|]. repeat split; f_equal; Z.div_mod_to_equations; lia.
  - split; [replace (S (3 * q + 1)) with (2 + q * 3)%nat by lia; now rewrite Nat.mod_add by lia|]. repeat split; f_equal; Z.div_mod_to_equations; lia.
  - split; [replace (S (3 * q + 2)) with (0 + (q + 1) * 3)%nat by lia; now rewrite Nat.mod_add by lia|]. repeat split; f_equal; Z.div_mod_to_equations; lia.
Qed.

(** The k-th problem is the intended one, and has exactly 2^(12+k) grid points whatever the number of dimensions. *)
Theorem C91_sizes : forall i k, kth_size i k = intended_size i k /\ grid_points (kth_size i k) = 2 ^ (12 + Z.of_nat k).
Proof.
  intros i k. assert (E : kth_size i k = intended_size i k).
  { unfold kth_size, intended_size. destruct i; cbn [yields].
    - now rewrite generator_1.
    - destruct (generator_2 k) as (_ & -> & ->). reflexivity.
    - destruct (generator_3 k) as (_ & -> & -> & ->). reflexivity. }
  split; [exact E|]. rewrite E. unfold intended_size. cbv zeta.
  assert (P : forall c d e, 0 <= c -> 0 <= d -> 0 < e -> 0 <= c + (Z.of_nat k + d) / e).
  { intros c d e H1 H2 H3. apply Z.add_nonneg_nonneg; [exact H1|]. apply Z.div_pos; lia. }
  destruct i; cbn [grid_points]; [reflexivity| |].
  - pose proof (P 6 0 2 ltac:(lia) ltac:(lia) ltac:(lia)) as H1. pose proof (P 6 1 2 ltac:(lia) ltac:(lia) ltac:(lia)) as H2. rewrite Z.add_0_r in H1.
    rewrite <- Z.pow_add_r by assumption. f_equal. Z.div_mod_to_equations; lia.
  - pose proof (P 4 0 3 ltac:(lia) ltac:(lia) ltac:(lia)) as H1. pose proof (P 4 1 3 ltac:(lia) ltac:(lia) ltac:(lia)) as H2.
    pose proof (P 4 2 3 ltac:(lia) ltac:(lia) ltac:(lia)) as H3. rewrite Z.add_0_r in H1.
    rewrite <- !Z.pow_add_r by (try assumption; now apply Z.add_nonneg_nonneg). f_equal. Z.div_mod_to_equations; lia.
Qed.

(** ** Reading numbers back *)
Lemma number_decimal z : number (decimal z) = Some z.
Proof.
  unfold number, decimal. rewrite NilZero.isi.
  - now rewrite DecimalZ.of_to.
  - destruct z; cbn [Z.to_int]; try discriminate. intros E. injection E as E. now apply Unsigned.to_uint_nonnil in E.
  - destruct z; cbn [Z.to_int]; try discriminate. intros E. injection E as E. now apply Unsigned.to_uint_nonnil in E.
Qed.
Lemma digits_no_letter d : match NilZero.string_of_uint d with EmptyString => True | String c _ => is_letter c = false /\ c <> "-"%char end.
Proof. destruct d; cbn; repeat split; discriminate. Qed.
Lemma decimal_no_option z : is_option (decimal z) = false.
Proof.
  unfold decimal. destruct (Z.to_int z) as [d|d]; cbn [NilZero.string_of_int].
  - pose proof (digits_no_letter d) as H. destruct (NilZero.string_of_uint d) as [|c r]; [reflexivity|]. destruct H as [_ H]. unfold is_option.
    destruct c as [[] [] [] [] [] [] [] []]; try reflexivity; now destruct H.
  - pose proof (digits_no_letter d) as H. destruct (NilZero.string_of_uint d) as [|c r]; [reflexivity|]. destruct H as [H _]. exact H.
Qed.
Opaque decimal number.

(** ** What the programs are told *)
(** any other text than the name of an option: the numbers the scripts write *)
Ltac as_text z :=
  let d := fresh "d" in let E := fresh "E" in let O := fresh "O" in
  pose proof (number_decimal z) as E; pose proof (decimal_no_option z) as O; set (d := decimal z) in *; clearbody d.
Ltac read_text := repeat match goal with H : is_option ?d = false |- context [is_option ?d] => rewrite H end.
Lemma database_pair a v rest : is_option a = true -> is_option v = false -> petsc_database (a :: v :: rest) = (a, Some v) :: petsc_database rest.
Proof. intros H1 H2. cbn [petsc_database]. now rewrite H1, H2. Qed.
Lemma database_skip a rest : is_option a = false -> petsc_database (a :: rest) = petsc_database rest.
Proof. intros H. cbn [petsc_database]. now rewrite H. Qed.
Ltac no_option := first [assumption | vm_compute; reflexivity].
Ltac read_database :=
  repeat lazymatch goal with
    | |- context [petsc_database (?a :: ?v :: ?rest)] => first [rewrite (@database_pair a v rest) by no_option | rewrite (@database_skip a (v :: rest)) by no_option]
    | |- context [petsc_database (@nil string)] => change (petsc_database (@nil string)) with (@nil (string * option string))
    end.
(** the sizes are of the number of dimensions of the matrix *)
Definition matches (t : laplacian) (s : problem_size) : Prop :=
  match t, s with LAPLACIAN_1D_3POINT, Size1 _ => True | LAPLACIAN_2D_5POINT, Size2 _ _ => True | LAPLACIAN_3D_7POINT, Size3 _ _ _ | LAPLACIAN_3D_27POINT, Size3 _ _ _ => True | _, _ => False end.
Lemma petsc_reads t m s : matches t s ->
  exists args, petsc_args (peer_name t) s (petsc_method m) = Ok args /\ petsc_sizes args = Some (t, extents s) /\
    petsc_option args "-ksp_type" = Some (Some (petsc_method m)) /\ petsc_option args "-ksp_max_it" = Some (Some "200") /\
    petsc_option args "-ksp_gmres_restart" = match m with GMRES => Some (Some "10") | _ => None end /\
    petsc_option args "-ksp_gmres_modifiedgramschmidt" = None.
Proof.
  intros H. destruct t, s; try contradiction; clear H; destruct m; (eexists; split; [unfold petsc_args; cbn -[decimal]; reflexivity|]);
    unfold petsc_sizes, petsc_matrix_type, petsc_int, petsc_option; cbn [app peer_name petsc_method extents]; as_text nx; try as_text ny; try as_text nz; read_database;
    cbn -[number]; rewrite ?E, ?E0, ?E1; repeat split; reflexivity.
Qed.
Lemma trilinos_reads t m s : matches t s ->
  exists args, trilinos_args (peer_name t) s (trilinos_method m) = Ok args /\ trilinos_matrix_type args = Some t /\ trilinos_solver_type args = Some (trilinos_class m) /\
    arguments t (fst (fst (extents s))) (snd (fst (extents s))) (snd (extents s)) (trilinos_arg args).
Proof.
  intros H. destruct t, s; try contradiction; clear H; destruct m; (eexists; split; [reflexivity|]); (split; [reflexivity|]); (split; [reflexivity|]);
    cbn [extents fst snd arguments]; unfold trilinos_arg; cbn [nth_error]; rewrite !number_decimal; repeat split.
Qed.
Lemma read_flag f a v z rest : flag_of a = Some f -> number v = Some z -> read_flags (a :: v :: rest) = (do l <- read_flags rest; Ok ((f, z) :: l)).
Proof. intros H1 H2. cbn [read_flags]. now rewrite H1, H2. Qed.
Lemma read_skip a rest : flag_of a = None -> read_flags (a :: rest) = read_flags rest.
Proof. intros H. cbn [read_flags]. now rewrite H. Qed.
Ltac read_options :=
  repeat lazymatch goal with
    | |- context [read_flags (?a :: ?v :: ?rest)] =>
        first [erewrite (@read_flag _ a v _ rest) by first [apply number_decimal | vm_compute; reflexivity] | rewrite (@read_skip a (v :: rest)) by (vm_compute; reflexivity)]
    | |- context [read_flags (@nil string)] => change (read_flags (@nil string)) with (@Ok (list (flag * Z)) nil)
    end.
(** what -nz is set to *)
Definition told_nz (file : script_file) (s : problem_size) : Z := match s with Size3 nx ny nz => match file with bench_all_py => ny | bench_all_ls_py => nz end | _ => 16 end.
Lemma legion_reads file nodes t m s : matches t s ->
  exists args o, legion_solvers_args file nodes (legion_name t) s (legion_method m) = Ok args /\ legion_options args = Ok o /\
    op_dim o = Z.of_nat (dim_code t) /\ op_solver o = legion_code m /\ op_nx o = fst (fst (extents s)) /\
    op_ny o = (match s with Size1 _ => 16 | _ => snd (fst (extents s)) end) /\ op_nz o = told_nz file s /\
    op_pieces o = 4 * nodes /\ op_it o = (match m with GMRES => 25 | _ => 200 end) /\ op_pt o = 1.
Proof.
  intros H. destruct t, s; try contradiction; clear H; destruct m; (eexists; eexists; split; [unfold legion_solvers_args; cbn -[decimal Z.mul]; reflexivity|]); unfold legion_options;
    (split; [cbn [app]; read_options; cbn [obind]; reflexivity|]); repeat split.
Qed.
Lemma kth_matches t k : matches t (kth_size (sizes_of t) k).
Proof. destruct t; exact I. Qed.
Lemma kth_positive t k : let '(nx, ny, nz) := extents (kth_size (sizes_of t) k) in sizes_for t nx ny nz /\ nx * ny * nz = 2 ^ (12 + Z.of_nat k).
Proof.
  destruct (C91_sizes (sizes_of t) k) as [E P]. rewrite E in *. clear E.
  assert (Q : forall a, 0 <= a -> 1 <= 2 ^ a) by (intros a H; pose proof (Z.pow_pos_nonneg 2 a ltac:(lia) H); lia).
  assert (D : forall c d e, 0 <= c -> 0 <= d -> 0 < e -> 0 <= c + (Z.of_nat k + d) / e).
  { intros c d e H1 H2 H3. apply Z.add_nonneg_nonneg; [exact H1|]. apply Z.div_pos; lia. }
  pose proof (D 6 0 2 ltac:(lia) ltac:(lia) ltac:(lia)) as D1. pose proof (D 4 0 3 ltac:(lia) ltac:(lia) ltac:(lia)) as D2. rewrite Z.add_0_r in D1, D2.
  unfold sizes_for. destruct t; cbn [sizes_of intended_size extents grid_points] in *; repeat split; rewrite ?Z.mul_1_r; try exact P; try lia;
    apply Q; try assumption; try lia; apply D; lia.
Qed.

(** For every matrix, every method and every k, the k-th command lines of bench_all.py (PETSc, Trilinos) and bench_all_ls.py (LegionSolvers) make the three
    programs build the same grid of 2^(12+k) points with the same stencil and run the same method; LegionSolvers uses one piece per GPU. *)
Theorem C91_same_problem : forall t m nodes k,
  let s := kth_size (sizes_of t) k in
  exists nx ny nz, sizes_for t nx ny nz /\ nx * ny * nz = 2 ^ (12 + Z.of_nat k) /\
  (exists args, petsc_args (peer_name t) s (petsc_method m) = Ok args /\ petsc_sizes args = Some (t, (nx, ny, nz)) /\
     petsc_option args "-ksp_type" = Some (Some (petsc_method m))) /\
  (exists args, trilinos_args (peer_name t) s (trilinos_method m) = Ok args /\ trilinos_matrix_type args = Some t /\
     trilinos_sizes t (trilinos_arg args) = Ok (unsigned64 nx, unsigned64 ny, unsigned64 nz) /\ trilinos_solver_type args = Some (trilinos_class m)) /\
  (exists args o, legion_solvers_args bench_all_ls_py nodes (legion_name t) s (legion_method m) = Ok args /\ legion_options args = Ok o /\
     chosen_stencil o = Some (benchmark_box (dim_code t) nx ny nz, benchmark_offsets (dim_code t)) /\
     op_solver o = legion_code m /\ op_pieces o = 4 * nodes /\ op_pt o = 1).
Proof.
  intros t m nodes k s. pose proof (kth_positive t k) as P. pose proof (kth_matches t k) as M. fold s in P, M.
  destruct (petsc_reads t m s M) as (pa & P1 & P2 & P3 & _). destruct (trilinos_reads t m s M) as (ta & T1 & T2 & T3 & T4).
  destruct (legion_reads bench_all_ls_py nodes t m s M) as (la & o & L1 & L2 & L3 & L4 & L5 & L6 & L7 & L8 & L9 & L10).
  destruct (extents s) as [[nx ny] nz] eqn:X. cbn [fst snd] in *. destruct P as [Hs Hp].
  exists nx, ny, nz. split; [exact Hs|]. split; [exact Hp|]. split; [exists pa; auto|]. split.
  - exists ta. split; [exact T1|]. split; [exact T2|]. split; [|exact T3]. unfold trilinos_sizes.
    destruct Hs as (_ & _ & _ & Hs).
    destruct t; cbn [arguments] in T4; [rewrite T4; destruct Hs as [-> ->]; reflexivity| | |].
    + destruct T4 as [-> ->]. rewrite Hs. reflexivity.
    + destruct T4 as (-> & -> & ->). reflexivity.
    + destruct T4 as (-> & -> & ->). reflexivity.
  - exists la, o. split; [exact L1|]. split; [exact L2|]. split; [|auto]. unfold chosen_stencil. rewrite L3.
    replace ((1 <=? Z.of_nat (dim_code t)) && (Z.of_nat (dim_code t) <=? 4))%bool with true by (destruct t; reflexivity). rewrite Nat2Z.id. f_equal. f_equal.
    rewrite L5, L6, L7. clear -X M. destruct t, s; try contradiction; cbn [dim_code benchmark_box extents told_nz fst snd] in *; injection X as <- <- <-; reflexivity.
Qed.

(** bench_all.py's own command line for LegionSolvers gives -nz the second extent.  It describes the same grid as the other two exactly when the matrix is not
    three-dimensional or k is not 2 modulo 3; otherwise the grid of LegionSolvers has twice as many points. *)
Theorem C91_bench_all_third_extent : forall t m nodes k,
  let s := kth_size (sizes_of t) k in
  exists pa nx ny nz la o b, petsc_args (peer_name t) s (petsc_method m) = Ok pa /\ petsc_sizes pa = Some (t, (nx, ny, nz)) /\
    legion_solvers_args bench_all_py nodes (legion_name t) s (legion_method m) = Ok la /\ legion_options la = Ok o /\
    chosen_stencil o = Some (b, benchmark_offsets (dim_code t)) /\
    (b = benchmark_box (dim_code t) nx ny nz <-> (dim_code t <= 2 \/ k mod 3 <> 2)%nat) /\
    ((3 <= dim_code t)%nat -> (k mod 3 = 2)%nat -> b = benchmark_box (dim_code t) nx ny (2 * nz) /\ nx * ny * (2 * nz) = 2 * 2 ^ (12 + Z.of_nat k)).
Proof.
  intros t m nodes k s. pose proof (kth_positive t k) as P. pose proof (kth_matches t k) as M. fold s in P, M.
  destruct (petsc_reads t m s M) as (pa & P1 & P2 & _).
  destruct (legion_reads bench_all_py nodes t m s M) as (la & o & L1 & L2 & L3 & L4 & L5 & L6 & L7 & _).
  assert (C : chosen_stencil o = Some (benchmark_box (dim_code t) (op_nx o) (op_ny o) (op_nz o), benchmark_offsets (dim_code t))).
  { unfold chosen_stencil. rewrite L3. replace ((1 <=? Z.of_nat (dim_code t)) && (Z.of_nat (dim_code t) <=? 4))%bool with true by (destruct t; reflexivity).
    now rewrite Nat2Z.id. }
  rewrite L5, L6, L7 in C. clear L5 L6 L7.
  destruct (extents s) as [[nx ny] nz] eqn:X. cbn [fst snd] in *. destruct P as [Hs Hp].
  exists pa, nx, ny, nz, la, o, (benchmark_box (dim_code t) nx (match s with Size1 _ => 16 | _ => ny end) (told_nz bench_all_py s)).
  split; [exact P1|]. split; [exact P2|]. split; [exact L1|]. split; [exact L2|]. split; [exact C|].
  destruct (le_lt_dec (dim_code t) 2) as [Hd|Hd].
  - split; [|intros; lia]. split; [intros _; now left|intros _]. destruct t; cbn [dim_code] in *; try lia; destruct s; try contradiction; injection X as <- <- <-; reflexivity.
  - assert (I3 : sizes_of t = Iter3) by (destruct t; cbn [dim_code] in Hd; try lia; reflexivity).
    assert (E : s = intended_size Iter3 k) by (unfold s; rewrite I3; apply C91_sizes). rewrite E in X |- *. cbn [intended_size extents told_nz] in X |- *.
    assert (Ex : 2 ^ (4 + (Z.of_nat k + 2) / 3) = nx) by congruence. assert (Ey : 2 ^ (4 + (Z.of_nat k + 1) / 3) = ny) by congruence.
    assert (Ez : 2 ^ (4 + Z.of_nat k / 3) = nz) by congruence.
    assert (B : forall a b', benchmark_box (dim_code t) nx ny a = benchmark_box (dim_code t) nx ny b' <-> a = b').
    { intros a b'. split; [|now intros ->]. destruct t; cbn [dim_code] in Hd; try lia; cbn [dim_code benchmark_box]; intros H; injection H; lia. }
    assert (N : ny = if Nat.eq_dec (k mod 3) 2 then 2 * nz else nz).
    { rewrite <- Ey, <- Ez. pose proof (Nat.div_mod_eq k 3) as D. pose proof (Nat.mod_upper_bound k 3 ltac:(lia)) as U.
      assert (Dk : Z.of_nat k / 3 = Z.of_nat (k / 3)) by (rewrite Nat2Z.inj_div; reflexivity).
      destruct (Nat.eq_dec (k mod 3) 2) as [R|R].
      - replace (2 * 2 ^ (4 + Z.of_nat k / 3)) with (2 ^ (4 + Z.of_nat k / 3) * 2) by lia. rewrite pow_double by (apply Z.add_nonneg_nonneg; [lia|apply Z.div_pos; lia]). f_equal.
        Z.div_mod_to_equations; lia.
      - f_equal. Z.div_mod_to_equations; lia. }
    rewrite Ey. split.
    + rewrite B. destruct (Nat.eq_dec (k mod 3) 2) as [R|R]; split; intros H.
      * destruct Hs as (_ & _ & Hz & _). lia.
      * lia.
      * right; exact R.
      * exact N.
    + intros _ R. destruct (Nat.eq_dec (k mod 3) 2) as [_|R']; [|contradiction]. split; [now rewrite B|]. lia.
Qed.

(** The number of iterations: 200 in all three programs for CG and BiCGStab.  For GMRES PETSc is limited to 200 inner iterations with restart length 10; LegionSolvers is told 25
    restarts of length 10.  The modified Gram-Schmidt option never reaches PETSc: it is written without the dash. *)
Theorem C91_iterations : forall t m nodes k file,
  let s := kth_size (sizes_of t) k in
  (exists args, petsc_args (peer_name t) s (petsc_method m) = Ok args /\ petsc_option args "-ksp_max_it" = Some (Some "200") /\
     petsc_option args "-ksp_gmres_restart" = (match m with GMRES => Some (Some "10") | _ => None end) /\
     petsc_option args "-ksp_gmres_modifiedgramschmidt" = None) /\
  (exists args o, legion_solvers_args file nodes (legion_name t) s (legion_method m) = Ok args /\ legion_options args = Ok o /\
     op_it o = match m with GMRES => 25 | _ => 200 end).
Proof.
  intros t m nodes k file s. pose proof (kth_matches t k) as M. fold s in M. split.
  - destruct (petsc_reads t m s M) as (pa & P1 & P2 & P3 & P4 & P5 & P6). exists pa. auto.
  - destruct (legion_reads file nodes t m s M) as (la & o & L1 & L2 & L3 & L4 & L5 & L6 & L7 & L8 & L9 & L10). exists la, o. auto.
Qed.

(** The three programs, started with these command lines, insert the same matrix: however PETSc and Trilinos spread the rows over their processes and in
    whatever order the processes run, the entries are those the tasks of LegionSolvers leave. *)
Theorem C91_same_matrix : forall (T : Type) (lit : Z -> Z -> T) ltT t m nodes k smax pa ta la o b offs ranges owned fuel sorted pieces tr size (st : StencilFill.loc -> cell T),
  let s := kth_size (sizes_of t) k in
  let n := 2 ^ (12 + Z.of_nat k) in
  petsc_args (peer_name t) s (petsc_method m) = Ok pa -> trilinos_args (peer_name t) s (trilinos_method m) = Ok ta ->
  legion_solvers_args bench_all_ls_py nodes (legion_name t) s (legion_method m) = Ok la -> legion_options la = Ok o -> chosen_stencil o = Some (b, offs) ->
  1 <= smax <= 2 ^ 63 - 1 -> n <= smax ->
  consecutive 0 n ranges -> Permutation (concat owned) (upto 0 n) -> Forall (fun rows => Z.of_nat (length rows) < 2 ^ 31) owned ->
  create_linearized_csr_stencil ltT fuel ROW_MAJOR b (stencil_of lit (dim_code t)) sorted pieces tr size ->
  exists nx ny nz pcalls tcalls,
    petsc_sizes pa = Some (t, (nx, ny, nz)) /\ trilinos_matrix_type ta = Some t /\ trilinos_sizes t (trilinos_arg ta) = Ok (nx, ny, nz) /\
    petsc_problem_size smax nx ny nz = Ok n /\ trilinos_problem_size nx ny nz = n /\
    Forall2 (fun r l => petsc_process lit t smax nx ny nz (fst r) (snd r) = Ok l) ranges pcalls /\
    Forall2 (fun rows l => trilinos_process lit t nx ny nz rows = Ok l) owned tcalls /\
    forall allp allt, interleave pcalls allp -> interleave tcalls allt ->
      is_stencil_matrix b (stencil_of lit (dim_code t)) allp /\ is_stencil_matrix b (stencil_of lit (dim_code t)) allt /\ Permutation allp allt /\
      exists contents, Permutation allp (map (numbered b) contents) /\
        exists first last, holds_csr (fun p => [linearize ROW_MAJOR b p]) (Sched.run loc_eq_dec tr st) contents (box_points ROW_MAJOR b) first last.
Proof.
  intros T lit ltT t m nodes k smax pa ta la o b offs ranges owned fuel sorted pieces tr size st s n HP HT HL HO HC Hsm Hn Hr Hown Hlen Hcr.
  pose proof (kth_positive t k) as P. pose proof (kth_matches t k) as M. fold s in P, M.
  destruct (C91_same_problem t m nodes k) as (nx' & ny' & nz' & _ & _ & (pa' & P1 & P2 & _) & _ & (la' & o' & L1 & L2 & L3 & _)). fold s in P1, L1.
  rewrite HP in P1. injection P1 as <-. rewrite HL in L1. injection L1 as <-. rewrite HO in L2. injection L2 as <-. rewrite HC in L3. injection L3 as E _.
  destruct (petsc_reads t m s M) as (pa'' & Q1 & Q2 & _). rewrite HP in Q1. injection Q1 as <-. rewrite Q2 in P2.
  destruct (trilinos_reads t m s M) as (ta' & T1 & T2 & T3 & T4). rewrite HT in T1. injection T1 as <-.
  destruct (extents s) as [[nx ny] nz] eqn:X. injection P2 as <- <- <-. cbn [fst snd] in T4. destruct P as [Hs Hp]. fold n in Hp. subst b.
  destruct (@C86_petsc_same_matrix T lit ltT t nx ny nz smax ranges fuel sorted pieces tr size st Hsm Hs ltac:(rewrite Hp; exact Hn) ltac:(rewrite Hp; exact Hr) Hcr) as (A1 & pcalls & A2 & A3).
  destruct (@C86_trilinos_same_matrix T lit ltT t (trilinos_arg ta) nx ny nz owned fuel sorted pieces tr size st Hs T4 ltac:(rewrite Hp; lia) ltac:(rewrite Hp; exact Hown) Hlen Hcr)
    as (B1 & B2 & tcalls & B3 & B4).
  exists nx, ny, nz, pcalls, tcalls. rewrite Hp in A1, B2. repeat (split; [assumption|]). intros allp allt Ip It.
  destruct (A3 _ Ip) as (C1 & contents & C2 & C3 & C4). destruct (B4 _ It) as (D1 & contents' & D2 & D3 & D4).
  split; [exact C1|]. split; [exact D1|]. split; [|exists contents; auto].
  apply NoDup_Permutation.
  - destruct C1 as [C1 _]. now apply NoDup_map_inv in C1.
  - destruct D1 as [D1 _]. now apply NoDup_map_inv in D1.
  - intros [[i j] v]. destruct C1 as [_ C1], D1 as [_ D1]. rewrite C1, D1. reflexivity.
Qed.

(** ** Resources: GPU-aware MPI ranks, one per GPU, for PETSc and Trilinos; one process per node with all GPUs for LegionSolvers *)
Theorem C91_resources : forall program args,
  jsrun_command program args "gpu" true = Ok (["jsrun"; "-M"; """-gpu"""; "--rs_per_host"; "4"; "--cpu_per_rs"; "10"; "--gpu_per_rs"; "1"; program] ++ args) /\
  jsrun_command program args "node" false = Ok (["jsrun"; "--bind"; "none"; "--rs_per_host"; "1"; "--cpu_per_rs"; "40"; "--gpu_per_rs"; "4"; program] ++ args) /\
  forall rank_per mpi, rank_per <> "node" -> rank_per <> "gpu" -> jsrun_command program args rank_per mpi = AssertFail.
Proof.
  intros program args. split; [reflexivity|]. split; [reflexivity|]. intros r mpi H1 H2. unfold jsrun_command. cbv zeta.
  destruct (String.eqb_spec r "node"); [contradiction|]. destruct (String.eqb_spec r "gpu"); [contradiction|]. reflexivity.
Qed.
(** the number of nodes is the number of times "hello" was printed, if nothing else was *)
Theorem C91_count_nodes : forall out err code n, count_nodes out err code = Ok n <-> code = 0 /\ err = [] /\ out = repeat "hello" (length out) /\ n = Z.of_nat (length out).
Proof.
  intros out err code n. unfold count_nodes. destruct (Z.eqb_spec code 0) as [-> |H]; cbn [negb]; [|split; [discriminate|intros (H' & _); contradiction]].
  destruct err; [|split; [discriminate|intros (_ & H & _); discriminate H]].
  assert (F : forallb (String.eqb "hello") out = true <-> out = repeat "hello" (length out)).
  { induction out as [|l out IH]; [split; reflexivity|]. cbn [forallb length repeat]. rewrite andb_true_iff, IH, String.eqb_eq. split; [intros [<- <-]; reflexivity|].
    intros H. injection H as H1 H2. split; [now symmetry|exact H2]. }
  destruct (forallb (String.eqb "hello") out); split.
  - intros H. injection H as <-. split; [reflexivity|]. split; [reflexivity|]. split; [now apply F|reflexivity].
  - intros (_ & _ & _ & ->). reflexivity.
  - discriminate.
  - intros (_ & _ & H & _). apply F in H. discriminate H.
Qed.

(** ** Example: the 27-point matrix, GMRES, third size, four nodes *)
Example C91_example :
  kth_size Iter3 2 = Size3 32 32 16 /\
  petsc_args "3D27" (Size3 32 32 16) "gmres" = Ok ["-dim"; "3D27"; "-nx"; "32"; "-ny"; "32"; "-nz"; "16"; "-ksp_type"; "gmres"; "-ksp_gmres_restart"; "10"; "-ksp_gmres_haptol"; "1.0e-100";
    "ksp_gmres_modifiedgramschmidt"; "-ksp_max_it"; "200"; "-pc_type"; "none"; "-ksp_atol"; "1.0e-100"; "-ksp_rtol"; "1.0e-100"; "-ksp_divtol"; "1.0e+100"; "-vec_type"; "cuda";
    "-mat_type"; "aijcusparse"] /\
  (exists la o, legion_solvers_args bench_all_ls_py 4 "4" (Size3 32 32 16) "3" = Ok la /\ legion_options la = Ok o /\ o = mk_options 4 3 32 32 16 16 25 1) /\
  (exists la o, legion_solvers_args bench_all_py 4 "4" (Size3 32 32 16) "3" = Ok la /\ legion_options la = Ok o /\ o = mk_options 4 3 32 32 32 16 25 1) /\
  legion_options ["-nx"; "x"] = AssertFail /\ count_nodes ["hello"; "hello"] [] 0 = Ok 2.
Proof.
  split; [reflexivity|]. split; [vm_compute; reflexivity|]. split; [eexists; eexists; split; [reflexivity|]; split; vm_compute; reflexivity|].
  split; [eexists; eexists; split; [reflexivity|]; split; vm_compute; reflexivity|]. split; vm_compute; reflexivity.
Qed.
