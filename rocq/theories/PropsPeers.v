(** PropsPeers: property C86 (the comparison benchmarks set up the same matrices as BenchmarkStencil). *)
From Verif Require Import Base Index IndexSpec IndexFacts Outcome Sched StencilSpec StencilSize StencilSizeFacts StencilFill StencilFillFacts StencilLaunch StencilCreate PropsStencil
  StencilTasks PropsConvolution Peers PeersFacts PropsStencilCG PropsGpuDense.
Set Implicit Arguments.
Local Open Scope Z_scope.

(** ** Specification *)
(** the offsets of BenchmarkStencil.cpp with values of the entry type ([lit n d] is the value of n.0 / d.0) *)
Definition stencil_of {T} (lit : Z -> Z -> T) (dim : nat) : list (point * T) :=
  map (fun oe => (fst oe, lit (snd oe) (benchmark_denominator dim))) (benchmark_numerators dim).
(** sizes that the matrix type does not use are 1 *)
Definition sizes_for (t : laplacian) (nx ny nz : Z) : Prop :=
  1 <= nx /\ 1 <= ny /\ 1 <= nz /\
  match t with LAPLACIAN_1D_3POINT => ny = 1 /\ nz = 1 | LAPLACIAN_2D_5POINT => nz = 1 | _ => True end.
(** the stored triple of a grid matrix as (row number, column number, value) *)
Definition numbered {T} (b : rect) (e : point * point * T) : Z * Z * T :=
  (linearize ROW_MAJOR b (fst (fst e)), linearize ROW_MAJOR b (snd (fst e)), snd e).
(** [entries], in whatever order, are the matrix of the stencil [offs] on the box [b], each position once *)
Definition is_stencil_matrix {T} (b : rect) (offs : list (point * T)) (entries : list (Z * Z * T)) : Prop :=
  NoDup (map fst entries) /\
  forall i j v, In (i, j, v) entries <-> exists p d, in_box b p /\ in_box b (padd p d) /\ In (d, v) offs /\ i = linearize ROW_MAJOR b p /\ j = linearize ROW_MAJOR b (padd p d).
(** the command line: program, matrix type, solver type, nx [, ny [, nz]] *)
Definition arguments (t : laplacian) (nx ny nz : Z) (arg : nat -> option Z) : Prop :=
  match t with
  | LAPLACIAN_1D_3POINT => arg 3%nat = Some nx
  | LAPLACIAN_2D_5POINT => arg 3%nat = Some nx /\ arg 4%nat = Some ny
  | _ => arg 3%nat = Some nx /\ arg 4%nat = Some ny /\ arg 5%nat = Some nz
  end.
(** the rows are split among processes in consecutive ranges *)
Fixpoint consecutive (a n : Z) (ranges : list (Z * Z)) : Prop :=
  match ranges with [] => a = n | (r, r') :: rest => a = r /\ r <= r' /\ consecutive r' n rest end.

(** ** Proofs *)
Lemma interleave_perm A (ts : list (list A)) tr : interleave ts tr -> Permutation (concat ts) tr.
Proof.
  induction 1 as [ts H|ts1 a t ts2 tr _ IH].
  - replace (concat ts) with (@nil A); [constructor|]. induction H as [|x ts -> _ IH]; [reflexivity|exact IH].
  - rewrite concat_app in *. cbn [concat app] in *. rewrite <- IH. symmetry. apply Permutation_middle.
Qed.
Lemma consecutive_perm a n ranges : consecutive a n ranges -> a <= n /\ concat (map (fun r => upto (fst r) (snd r)) ranges) = upto a n.
Proof.
  revert a. induction ranges as [|[r r'] rest IH]; intros a H; cbn [consecutive] in H.
  - subst a. split; [lia|]. cbn. unfold upto. rewrite zrange_nil by lia. reflexivity.
  - destruct H as (-> & H1 & H2). destruct (IH _ H2) as [H3 E]. split; [lia|]. cbn [map concat fst snd]. rewrite E. unfold upto. rewrite (@zrange_app r (r' - 1) (n - 1)) by lia. replace (r' - 1 + 1) with r' by lia. reflexivity.
Qed.
Lemma peer_order_perm t : Permutation (benchmark_numerators (dim_code t)) (peer_order t).
Proof.
  apply NoDup_Permutation_bis.
  - assert (H : NoDup (map fst (benchmark_numerators (dim_code t)))).
    { destruct t; cbn [dim_code benchmark_numerators map fst]; repeat (constructor; [cbn [In]; intros H; repeat (destruct H as [H|H]; [discriminate H|]); exact H|]); constructor. }
    apply NoDup_map_inv in H. exact H.
  - destruct t; cbn; lia.
  - intros x Hx. destruct t; cbn [dim_code benchmark_numerators In] in Hx; repeat (destruct Hx as [<-|Hx]; [cbn [peer_order In]; tauto|]); destruct Hx.
Qed.
Lemma denominator_code t : denominator t = benchmark_denominator (dim_code t).
Proof. destruct t; reflexivity. Qed.

Section Matrix.
Variable T : Type.
Variable lit : Z -> Z -> T.
Variable t : laplacian.
Variables nx ny nz : Z.
Hypothesis Hs : sizes_for t nx ny nz.
Notation b := (benchmark_box (dim_code t) nx ny nz).
Definition ordered : list (point * T) := map (fun oe => (fst oe, lit (snd oe) (denominator t))) (peer_order t).
Lemma ordered_perm : Permutation (stencil_of lit (dim_code t)) ordered.
Proof. unfold stencil_of, ordered. rewrite denominator_code. apply Permutation_map, peer_order_perm. Qed.
Lemma box_nonempty : nonempty_box b /\ lo b <> [].
Proof. destruct Hs as (H1 & H2 & H3 & _). apply benchmark_nonempty; assumption. Qed.
Lemma box_volume : volume b = nx * ny * nz.
Proof.
  destruct Hs as (H1 & H2 & H3 & H4). unfold volume. destruct t; cbn [dim_code benchmark_box lo hi volume_aux];
    repeat match goal with |- context [?h <? 0] => replace (h <? 0) with false by (symmetry; apply Z.ltb_ge; lia) end;
    [destruct H4 as [-> ->]|rewrite H4| |]; ring.
Qed.
Lemma row_ok smax ex ey ez p : 1 <= smax <= 2 ^ 63 - 1 -> nx * ny * nz <= smax -> evals smax ex nx -> evals smax ey ny -> evals smax ez nz -> in_box b p ->
  row_calls lit smax t ex ey ez (Ok (Sgn (linearize ROW_MAJOR b p))) = Ok (flat_map (at_offset lit b t p) (peer_order t)).
Proof.
  intros Hmax Hn Ex Ey Ez [L [_ P]]. destruct Hs as (H1 & H2 & H3 & H4). cbn [linearize]. destruct t; cbn [dim_code benchmark_box lo hi length] in *.
  - destruct p as [|x [|]]; try discriminate. specialize (P 0%nat ltac:(lia)). cbn [nth] in P. rewrite linearize1. apply row1; (assumption || lia).
  - destruct p as [|x [|y [|]]]; try discriminate. assert (P0 := P 0%nat ltac:(lia)). assert (P1 := P 1%nat ltac:(lia)). cbn [nth] in P0, P1. rewrite linearize2. apply row2; try assumption; try lia; subst; nia.
  - destruct p as [|x [|y [|z [|]]]]; try discriminate. assert (P0 := P 0%nat ltac:(lia)). assert (P1 := P 1%nat ltac:(lia)). assert (P2 := P 2%nat ltac:(lia)). cbn [nth] in P0, P1, P2. rewrite linearize3. apply row3; try assumption; try lia; auto.
  - destruct p as [|x [|y [|z [|]]]]; try discriminate. assert (P0 := P 0%nat ltac:(lia)). assert (P1 := P 1%nat ltac:(lia)). assert (P2 := P 2%nat ltac:(lia)). cbn [nth] in P0, P1, P2. rewrite linearize3. apply row3; try assumption; try lia; auto.
Qed.
Lemma row_triples p : with_row (linearize ROW_MAJOR b p) (flat_map (at_offset lit b t p) (peer_order t)) = map (numbered b) (stencil_row b ordered p).
Proof.
  unfold ordered, stencil_row. induction (peer_order t) as [|oe l IH]; [reflexivity|]. unfold with_row in *. cbn [flat_map map filter]. rewrite map_app, IH. cbn [fst snd].
  unfold at_offset. destruct (contains b (padd p (fst oe))); reflexivity.
Qed.
(** the point with a given number *)
Definition point_of (g : Z) : point := nth (Z.to_nat g) (box_points ROW_MAJOR b) [].
Lemma point_of_ok g : 0 <= g < volume b -> in_box b (point_of g) /\ linearize ROW_MAJOR b (point_of g) = g.
Proof.
  intros Hg. destruct box_nonempty as [Hn _]. assert (Hwf := nonempty_wf _ Hn). assert (L := box_points_length ROW_MAJOR b Hwf).
  assert (Hl : (Z.to_nat g < length (box_points ROW_MAJOR b))%nat) by lia. split.
  - apply (in_box_points ROW_MAJOR b _ Hwf). apply nth_In. exact Hl.
  - unfold point_of. rewrite <- (map_nth (linearize ROW_MAJOR b)). rewrite (map_linearize ROW_MAJOR b Hn).
    rewrite (nth_indep _ _ 0) by (rewrite zrange_length; lia). rewrite nth_zrange by lia. lia.
Qed.
Lemma points_of_all : map point_of (upto 0 (volume b)) = box_points ROW_MAJOR b.
Proof.
  destruct box_nonempty as [Hn _]. assert (Hwf := nonempty_wf _ Hn). assert (L := box_points_length ROW_MAJOR b Hwf).
  unfold upto, zrange. rewrite map_map. replace (Z.to_nat (volume b - 1 - 0 + 1)) with (length (box_points ROW_MAJOR b)) by lia.
  unfold point_of. rewrite (map_ext _ (fun i => nth i (box_points ROW_MAJOR b) [])) by (intros i; f_equal; lia).
  generalize (box_points ROW_MAJOR b). intros l. clear. induction l as [|x l IH]; [reflexivity|]. cbn [length seq map nth]. rewrite <- seq_shift, map_map. f_equal. exact IH.
Qed.
Definition row_entries (g : Z) : list (Z * Z * T) := map (numbered b) (stencil_row b ordered (point_of g)).
Lemma petsc_rows_ok smax rows : 1 <= smax <= 2 ^ 63 - 1 -> nx * ny * nz <= smax -> (forall g, In g rows -> 0 <= g < volume b) ->
  petsc_rows lit t smax nx ny nz rows = Ok (flat_map row_entries rows).
Proof.
  intros Hmax Hn. assert (H := Hs). destruct H as (H1 & H2 & H3 & _). assert (1 <= ny * nz) by nia. assert (nx <= smax /\ ny <= smax /\ nz <= smax) as (B1 & B2 & B3) by (repeat split; nia).
  induction rows as [|g rows IH]; intros Hr; [reflexivity|]. cbn [petsc_rows flat_map].
  destruct (@point_of_ok g (Hr g (or_introl eq_refl))) as [P1 P2].
  rewrite <- P2 at 1. rewrite row_ok by (assumption || (apply evals_sgn; lia)). cbn [obind].
  rewrite IH by (intros g' Hg'; apply Hr; right; exact Hg'). cbn [obind]. unfold row_entries. rewrite <- row_triples, P2. reflexivity.
Qed.
Lemma trilinos_rows_ok rows : nx * ny * nz <= max_global -> (forall g, In g rows -> 0 <= g < volume b) ->
  trilinos_rows lit t nx ny nz rows [] = Ok (flat_map row_entries rows).
Proof.
  intros Hn. assert (H := Hs). destruct H as (H1 & H2 & H3 & _). assert (1 <= ny * nz) by nia. assert (Hmax : 1 <= max_global <= 2 ^ 63 - 1) by (unfold max_global; lia).
  assert (nx <= max_global /\ ny <= max_global /\ nz <= max_global) as (B1 & B2 & B3) by (repeat split; nia).
  induction rows as [|g rows IH]; intros Hr; [reflexivity|]. cbn [trilinos_rows flat_map].
  destruct (@point_of_ok g (Hr g (or_introl eq_refl))) as [P1 P2].
  rewrite <- P2 at 1. rewrite row_ok by (assumption || (split; [lia|right; reflexivity])). cbn [obind].
  rewrite IH by (intros g' Hg'; apply Hr; right; exact Hg'). cbn [obind app]. unfold row_entries. rewrite <- row_triples, P2. reflexivity.
Qed.
Lemma all_rows rows : Permutation rows (upto 0 (volume b)) -> Permutation (flat_map row_entries rows) (map (numbered b) (stencil_contents ROW_MAJOR b ordered)).
Proof.
  intros H. rewrite (Permutation_flat_map row_entries H). unfold row_entries. rewrite <- (flat_map_map point_of (fun p => map (numbered b) (stencil_row b ordered p))).
  rewrite points_of_all. unfold stencil_contents. rewrite map_flat_map. reflexivity.
Qed.
End Matrix.

Lemma contents_matrix T (b : rect) (offs sorted : list (point * T)) entries : nonempty_box b -> offsets_dim b offs -> NoDup (map fst offs) -> Permutation offs sorted ->
  Permutation entries (map (numbered b) (stencil_contents ROW_MAJOR b sorted)) -> is_stencil_matrix b offs entries.
Proof.
  intros Hn Hd Hnd Hp He. assert (Hwf := nonempty_wf _ Hn).
  assert (Hds : offsets_dim b sorted) by (unfold offsets_dim; eapply Permutation_Forall; [exact Hp|exact Hd]).
  assert (Hnds : NoDup (map fst sorted)) by (eapply Permutation_NoDup; [apply Permutation_map; exact Hp|exact Hnd]).
  split.
  - eapply Permutation_NoDup; [symmetry; apply Permutation_map; exact He|]. unfold stencil_contents. rewrite !map_flat_map. apply NoDup_flat_map.
    + apply NoDup_box_points.
    + intros p Hin. apply (in_box_points ROW_MAJOR b _ Hwf) in Hin. unfold stencil_row. rewrite !map_map. cbn [numbered fst snd].
      apply NoDup_map_in.
      * apply NoDup_filter. apply NoDup_map_inv in Hnds. exact Hnds.
      * intros [d1 v1] [d2 v2] H1 H2 E. apply filter_In in H1, H2. destruct H1 as [I1 C1]. destruct H2 as [I2 C2]. cbn [fst snd] in *. apply contains_iff in C1, C2. injection E as E.
        apply (linearize_inj ROW_MAJOR b _ _ C1 C2) in E.
        assert (L1 := proj1 (Forall_forall _ _) Hds _ I1). assert (L2 := proj1 (Forall_forall _ _) Hds _ I2). cbn [fst] in L1, L2. assert (Lp := proj1 Hin).
        apply padd_inj in E; [|congruence|congruence]. subst d2.
        assert (G : forall l : list (point * T), NoDup (map fst l) -> In (d1, v1) l -> In (d1, v2) l -> v1 = v2).
        { clear. induction l as [|[d v] l IH]; intros N H1 H2; [destruct H1|]. cbn [map fst] in N. inversion N as [|? ? N1 N2]. subst.
          destruct H1 as [H1|H1]; destruct H2 as [H2|H2]; try congruence; try (apply IH; assumption); exfalso; apply N1.
          - injection H1 as -> ->. apply (in_map fst) in H2. exact H2.
          - injection H2 as -> ->. apply (in_map fst) in H1. exact H1. }
        f_equal. exact (G _ Hnds I1 I2).
    + intros p q x Hp' Hq Hx Hy. apply (in_box_points ROW_MAJOR b _ Hwf) in Hp', Hq. unfold stencil_row in Hx, Hy. rewrite !map_map in Hx, Hy. apply in_map_iff in Hx, Hy.
      destruct Hx as [o1 [<- _]]. destruct Hy as [o2 [E _]]. cbn [numbered fst snd] in E. injection E as E _. apply (linearize_inj ROW_MAJOR b _ _ Hp' Hq). symmetry. exact E.
  - intros i j v. split.
    + intros H. apply (Permutation_in _ He) in H. apply in_map_iff in H. destruct H as [[[r c] e] [E H]]. unfold numbered in E. cbn [fst snd] in E. injection E as <- <- <-.
      unfold stencil_contents in H. apply in_flat_map in H. destruct H as [p [H1 H2]]. apply (in_box_points ROW_MAJOR b _ Hwf) in H1. unfold stencil_row in H2. apply in_map_iff in H2. destruct H2 as [[d v] [E H2]].
      cbn [fst snd] in E. injection E as <- <- <-. apply filter_In in H2. destruct H2 as [H2 H3]. cbn [fst] in H3. apply contains_iff in H3.
      exists p, d. split; [exact H1|]. split; [exact H3|]. split; [apply (Permutation_in _ (Permutation_sym Hp)); exact H2|]. auto.
    + intros (p & d & H1 & H2 & H3 & -> & ->). apply (Permutation_in _ (Permutation_sym He)). apply in_map_iff. exists (p, padd p d, v). split; [reflexivity|].
      unfold stencil_contents. apply in_flat_map. exists p. split; [apply (in_box_points ROW_MAJOR b _ Hwf); exact H1|]. unfold stencil_row. apply in_map_iff. exists (d, v). split; [reflexivity|].
      apply filter_In. split; [apply (Permutation_in _ Hp); exact H3|]. cbn [fst]. apply contains_iff. exact H2.
Qed.
Lemma stencil_of_dim T (lit : Z -> Z -> T) dim nx ny nz : offsets_dim (benchmark_box dim nx ny nz) (stencil_of lit dim).
Proof. unfold offsets_dim, stencil_of. rewrite Forall_map. destruct dim as [|[|[|[|d]]]]; cbn [benchmark_box benchmark_numerators]; repeat constructor. Qed.
Lemma stencil_of_distinct T (lit : Z -> Z -> T) dim : NoDup (map fst (stencil_of lit dim)).
Proof.
  unfold stencil_of. rewrite map_map. cbn [fst]. destruct dim as [|[|[|[|d]]]]; cbn [benchmark_numerators map fst];
    repeat (constructor; [cbn [In]; intros H; repeat (destruct H as [H|H]; [discriminate H|]); exact H|]); constructor.
Qed.

(** ** C86 *)
(** PETSc: with the sizes the matrix type does not use left at 1 and a number of rows that fits PetscInt, no arithmetic
    overflows, and the calls of all processes together, in any order, insert the stencil matrix, every position once (so
    inserting and adding are the same), which is what create_linearized_csr_stencil_matrix stores for BenchmarkStencil. *)
Theorem C86_petsc_same_matrix : forall (T : Type) (lit : Z -> Z -> T) ltT t nx ny nz smax ranges fuel sorted pieces tr size (s : StencilFill.loc -> cell T),
  1 <= smax <= 2 ^ 63 - 1 -> sizes_for t nx ny nz -> nx * ny * nz <= smax ->
  let b := benchmark_box (dim_code t) nx ny nz in
  let offs := stencil_of lit (dim_code t) in
  consecutive 0 (nx * ny * nz) ranges ->
  create_linearized_csr_stencil ltT fuel ROW_MAJOR b offs sorted pieces tr size ->
  petsc_problem_size smax nx ny nz = Ok (nx * ny * nz) /\
  exists calls, Forall2 (fun r l => petsc_process lit t smax nx ny nz (fst r) (snd r) = Ok l) ranges calls /\
    forall all, interleave calls all ->
      is_stencil_matrix b offs all /\
      exists contents, size = Z.of_nat (length contents) /\ Permutation all (map (numbered b) contents) /\
        exists first last, holds_csr (fun p => [linearize ROW_MAJOR b p]) (Sched.run loc_eq_dec tr s) contents (box_points ROW_MAJOR b) first last.
Proof.
  intros T lit ltT t nx ny nz smax ranges fuel sorted pieces tr size s Hmax Hs Hn b offs Hr Hc.
  destruct (box_nonempty Hs) as [Hne Hlo]. assert (Hwf := nonempty_wf _ Hne). assert (V := box_volume Hs). fold b in Hne, Hlo, Hwf, V.
  destruct (consecutive_perm _ _ _ Hr) as [_ Hcat].
  destruct (@linearized_csr_stencil_memory T ltT fuel ROW_MAJOR b offs sorted pieces tr size s Hlo Hne (stencil_of_dim _ _ _ _ _) Hc) as (Hsz & Hsort & Hm).
  assert (H := Hs). destruct H as (H1 & H2 & H3 & _). assert (1 <= nx * ny) by nia. assert (nx * ny <= nx * ny * nz) by nia.
  split.
  { unfold petsc_problem_size. assert (E : evals smax (mul smax (mul smax (Ok (Sgn nx)) (Ok (Sgn ny))) (Ok (Sgn nz))) (nx * ny * nz)).
    { apply evals_mul; [exact Hmax| |apply evals_sgn; nia|exact Hn]. apply evals_mul; [exact Hmax|apply evals_sgn; nia|apply evals_sgn; nia|lia]. }
    destruct E as [_ [->| ->]]; reflexivity. }
  exists (map (fun r => flat_map (row_entries lit t nx ny nz) (upto (fst r) (snd r))) ranges). split.
  - assert (G : forall r g, In r ranges -> In g (upto (fst r) (snd r)) -> 0 <= g < volume b).
    { intros r g Hin Hg. assert (I : In g (upto 0 (nx * ny * nz))) by (rewrite <- Hcat; apply in_concat; exists (upto (fst r) (snd r)); split; [apply in_map_iff; exists r; auto|exact Hg]).
      unfold upto in I. apply in_zrange in I. lia. }
    clear Hr Hcat. induction ranges as [|r rest IH]; cbn [map]; constructor.
    + apply petsc_rows_ok; try assumption. intros g Hg. apply (G r g); [left; reflexivity|exact Hg].
    + apply IH. intros r' g Hin. apply G. right. exact Hin.
  - intros all Hall. apply interleave_perm in Hall.
    assert (E : concat (map (fun r => flat_map (row_entries lit t nx ny nz) (upto (fst r) (snd r))) ranges) = flat_map (row_entries lit t nx ny nz) (upto 0 (volume b))).
    { rewrite V, <- Hcat. clear. induction ranges as [|r rest IH]; [reflexivity|]. cbn [map concat]. rewrite IH, flat_map_app. reflexivity. }
    rewrite E in Hall. assert (A := all_rows lit Hs (Permutation_refl _)). fold b in A.
    assert (P : Permutation all (map (numbered b) (stencil_contents ROW_MAJOR b (ordered lit t)))) by (rewrite <- Hall; exact A).
    split; [eapply contents_matrix; [exact Hne|apply stencil_of_dim|apply stencil_of_distinct|apply ordered_perm|exact P]|].
    exists (stencil_contents ROW_MAJOR b sorted). split; [exact Hsz|]. split; [|eexists _, _; exact Hm].
    rewrite P. apply Permutation_map. rewrite (stencil_contents_perm ROW_MAJOR Hwf (ordered_perm lit t)). symmetry. apply stencil_contents_perm; [exact Hwf|apply Hsort].
Qed.
(** Trilinos: the sizes are the third, fourth and fifth argument (the ones the matrix type does not use are 1); if the grid has
    fewer than 2^63 points and no process owns 2^31 rows or more, the calls of all processes together, for any
    assignment of the rows to the processes and in any order, insert the same matrix. *)
Theorem C86_trilinos_same_matrix : forall (T : Type) (lit : Z -> Z -> T) ltT t arg nx ny nz owned fuel sorted pieces tr size (s : StencilFill.loc -> cell T),
  sizes_for t nx ny nz -> arguments t nx ny nz arg -> nx * ny * nz < 2 ^ 63 ->
  let b := benchmark_box (dim_code t) nx ny nz in
  let offs := stencil_of lit (dim_code t) in
  Permutation (concat owned) (upto 0 (nx * ny * nz)) -> Forall (fun rows => Z.of_nat (length rows) < 2 ^ 31) owned ->
  create_linearized_csr_stencil ltT fuel ROW_MAJOR b offs sorted pieces tr size ->
  trilinos_sizes t arg = Ok (nx, ny, nz) /\ trilinos_problem_size nx ny nz = nx * ny * nz /\
  exists calls, Forall2 (fun rows l => trilinos_process lit t nx ny nz rows = Ok l) owned calls /\
    forall all, interleave calls all ->
      is_stencil_matrix b offs all /\
      exists contents, size = Z.of_nat (length contents) /\ Permutation all (map (numbered b) contents) /\
        exists first last, holds_csr (fun p => [linearize ROW_MAJOR b p]) (Sched.run loc_eq_dec tr s) contents (box_points ROW_MAJOR b) first last.
Proof.
  intros T lit ltT t arg nx ny nz owned fuel sorted pieces tr size s Hs Ha Hn b offs Hp Hl Hc.
  assert (H := Hs). destruct H as (H1 & H2 & H3 & H4).
  destruct (box_nonempty Hs) as [Hne Hlo]. assert (Hwf := nonempty_wf _ Hne). assert (V := box_volume Hs). fold b in Hne, Hlo, Hwf, V.
  destruct (@linearized_csr_stencil_memory T ltT fuel ROW_MAJOR b offs sorted pieces tr size s Hlo Hne (stencil_of_dim _ _ _ _ _) Hc) as (Hsz & Hsort & Hm).
  assert (1 <= nx * ny) by nia. assert (nx * ny <= nx * ny * nz) by nia.
  split.
  { assert (U : forall z, 1 <= z -> z <= nx * ny * nz -> unsigned64 z = z) by (intros z Z1 Z2; apply Z.mod_small; lia).
    unfold trilinos_sizes. destruct t; cbn [arguments] in Ha.
    - destruct H4 as [-> ->]. rewrite Ha, U by nia. reflexivity.
    - destruct Ha as [A1 A2]. rewrite H4 in *. rewrite A1, A2, !U by nia. reflexivity.
    - destruct Ha as (A1 & A2 & A3). rewrite A1, A2, A3, !U by nia. reflexivity.
    - destruct Ha as (A1 & A2 & A3). rewrite A1, A2, A3, !U by nia. reflexivity. }
  split; [unfold trilinos_problem_size, unsigned64; rewrite (Z.mod_small (nx * ny)), Z.mod_small; nia|].
  exists (map (flat_map (row_entries lit t nx ny nz)) owned). split.
  - assert (G : forall r g, In r owned -> In g r -> 0 <= g < volume b).
    { intros r g Hin Hg. assert (I : In g (upto 0 (nx * ny * nz))) by (apply (Permutation_in _ Hp); apply in_concat; exists r; auto). unfold upto in I. apply in_zrange in I. lia. }
    clear Hp. induction owned as [|r rest IH]; cbn [map]; constructor.
    + unfold trilinos_process. inversion Hl as [|? ? L _]. subst. assert (E : to_int32 (Z.of_nat (length r)) = Z.of_nat (length r)).
      { unfold to_int32. rewrite Z.mod_small by lia. destruct (Z.ltb_spec (Z.of_nat (length r)) (2 ^ 31)); [reflexivity|lia]. }
      rewrite E, Nat2Z.id, firstn_all. apply trilinos_rows_ok; [exact Hs|unfold max_global; lia|]. intros g Hg. apply (G r g); [left; reflexivity|exact Hg].
    + apply IH; [inversion Hl; assumption|]. intros r' g Hin. apply G. right. exact Hin.
  - intros all Hall. apply interleave_perm in Hall.
    assert (E : concat (map (flat_map (row_entries lit t nx ny nz)) owned) = flat_map (row_entries lit t nx ny nz) (concat owned)).
    { clear. induction owned as [|r rest IH]; [reflexivity|]. cbn [map concat]. rewrite IH, flat_map_app. reflexivity. }
    rewrite E in Hall. rewrite <- V in Hp. assert (A := all_rows lit Hs Hp). fold b in A.
    assert (P : Permutation all (map (numbered b) (stencil_contents ROW_MAJOR b (ordered lit t)))) by (rewrite <- Hall; exact A).
    split; [eapply contents_matrix; [exact Hne|apply stencil_of_dim|apply stencil_of_distinct|apply ordered_perm|exact P]|].
    exists (stencil_contents ROW_MAJOR b sorted). split; [exact Hsz|]. split; [|eexists _, _; exact Hm].
    rewrite P. apply Permutation_map. rewrite (stencil_contents_perm ROW_MAJOR Hwf (ordered_perm lit t)). symmetry. apply stencil_contents_perm; [exact Hwf|apply Hsort].
Qed.
(** a grid with more points than PetscInt can count is undefined behaviour *)
Theorem C86_petsc_too_large : forall smax nx ny nz, 1 <= smax -> 1 <= nx <= smax -> 1 <= ny <= smax -> 1 <= nz <= smax -> smax < nx * ny * nz ->
  petsc_problem_size smax nx ny nz = UB.
Proof.
  intros smax nx ny nz H0 H1 H2 H3 H. unfold petsc_problem_size, mul, binary. cbn [obind]. unfold checked, fits_signed.
  assert (1 <= nx * ny) by nia. assert (1 <= nx * ny * nz) by nia.
  destruct (Z.leb_spec (- smax - 1) (nx * ny)); [|lia]. destruct (Z.leb_spec (nx * ny) smax); [|reflexivity]. cbn [andb obind].
  destruct (Z.leb_spec (- smax - 1) (nx * ny * nz)); [|lia]. destruct (Z.leb_spec (nx * ny * nz) smax); [lia|reflexivity].
Qed.

(** what goes wrong otherwise.  PETSc: a size that the matrix type does not use but that is given on the command line adds
    rows that refer back into the grid and to which the grid does not refer, so the matrix is not symmetric *)
Lemma petsc_rows_in T (lit : Z -> Z -> T) t smax nx ny nz rows : (forall g, In g rows -> exists l, row_calls lit smax t (Ok (Sgn nx)) (Ok (Sgn ny)) (Ok (Sgn nz)) (Ok (Sgn g)) = Ok l) ->
  exists calls, petsc_rows lit t smax nx ny nz rows = Ok calls /\
    forall i j v, In (i, j, v) calls <-> In i rows /\ exists l, row_calls lit smax t (Ok (Sgn nx)) (Ok (Sgn ny)) (Ok (Sgn nz)) (Ok (Sgn i)) = Ok l /\ In (j, v) l.
Proof.
  induction rows as [|g rows IH]; intros H.
  - exists []. split; [reflexivity|]. cbn. intuition.
  - destruct (H g (or_introl eq_refl)) as [l Hl]. destruct IH as [rest [E1 E2]]; [intros g' Hg'; apply H; right; exact Hg'|].
    exists (with_row g l ++ rest). cbn [petsc_rows]. rewrite Hl. cbn [obind]. rewrite E1. cbn [obind]. split; [reflexivity|].
    intros i j v. rewrite in_app_iff, E2. unfold with_row. rewrite in_map_iff. split.
    + intros [[[j' v'] [E I]]|[I R]].
      * cbn [fst snd] in E. injection E as -> -> ->. split; [left; reflexivity|]. exists l. auto.
      * split; [right; exact I|exact R].
    + intros [[<-|I] [l' [E I']]].
      * left. exists (j, v). split; [reflexivity|]. congruence.
      * right. split; [exact I|]. exists l'. auto.
Qed.
Section Outside.
Variable T : Type.
Variable lit : Z -> Z -> T.
Variables smax nx ny nz : Z.
Hypothesis Hmax : 1 <= smax <= 2 ^ 63 - 1.
Hypothesis Hx : 1 <= nx.
Hypothesis Hy : 1 <= ny.
Ltac coord := first [eassumption | apply e0; lia | apply e1; lia
  | eapply evals_add; [exact Hmax|coord|coord|lia] | eapply evals_sub; [exact Hmax|coord|coord|lia] ].
Ltac cmp := eapply (@evals_less smax Hmax); coord.
Lemma outside1 g : nx <= g < smax -> row_calls lit smax LAPLACIAN_1D_3POINT (Ok (Sgn nx)) (Ok (Sgn ny)) (Ok (Sgn nz)) (Ok (Sgn g)) = Ok [(g - 1, neg_one lit); (g, two lit)].
Proof.
  intros H. assert (Eg : evals smax (Ok (Sgn g)) g) by (apply evals_sgn; lia). assert (Ex : evals smax (Ok (Sgn nx)) nx) by (apply evals_sgn; lia).
  unfold row_calls. cbn [in_turn]. rewrite (@put_ok smax T _ _ _ true (g - 1)) by ((etransitivity; [cmp|f_equal; apply Z.ltb_lt; lia]) || (intros _; coord)). cbn [obind].
  rewrite (@put_ok smax T _ _ _ true g) by (reflexivity || (intros _; coord)). cbn [obind].
  rewrite (@put_ok smax T _ _ _ false 0) by ((etransitivity; [cmp|f_equal; apply Z.ltb_ge; lia]) || discriminate). reflexivity.
Qed.
Lemma outside2 gx gy : nx <= gx -> 0 <= gy < ny -> ny * gx + gy < smax ->
  exists l, row_calls lit smax LAPLACIAN_2D_5POINT (Ok (Sgn nx)) (Ok (Sgn ny)) (Ok (Sgn nz)) (Ok (Sgn (ny * gx + gy))) = Ok ((ny * (gx - 1) + gy, neg_one lit) :: l).
Proof.
  intros H1 H2 H3. set (g := ny * gx + gy) in *. assert (gx <= ny * gx) by nia. assert (gx < smax) by lia. assert (ny <= ny * gx) by nia. assert (ny <= smax) by lia.
  assert (Eg : evals smax (Ok (Sgn g)) g) by (apply evals_sgn; lia). assert (Ex : evals smax (Ok (Sgn nx)) nx) by (apply evals_sgn; lia).
  assert (Ey : evals smax (Ok (Sgn ny)) ny) by (apply evals_sgn; lia).
  assert (Hgx : evals smax (Ok (Sgn gx)) gx) by (apply evals_sgn; lia). assert (Hgy : evals smax (Ok (Sgn gy)) gy) by (apply evals_sgn; lia).
  assert (Hq := evals_div Hmax Eg Ey ltac:(lia)). assert (Hr := evals_rem Hmax Eg Ey ltac:(lia)).
  assert (C1 : g mod ny = gy) by (symmetry; apply (Z.mod_unique_pos _ _ gx); [lia|reflexivity]).
  assert (C2 : g / ny = gx) by (symmetry; apply (Z.div_unique_pos _ _ _ gy); [lia|reflexivity]).
  rewrite C2 in Hq. rewrite C1 in Hr.
  assert (Col : forall X Y x y, evals smax X x -> evals smax Y y -> ny * x + y <= smax -> evals smax (add smax (mul smax (Ok (Sgn ny)) X) Y) (ny * x + y)).
  { intros X Y x y EX EY L. assert (EX' := proj1 EX). assert (EY' := proj1 EY). apply evals_add; [exact Hmax| |exact EY|exact L]. apply evals_mul; [exact Hmax|exact Ey|exact EX|lia]. }
  unfold row_calls; rewrite (evals_signed Hr), (evals_signed Hq); cbn [obind in_turn]. clear Hq Hr C1 C2.
  rewrite (@put_ok smax T _ _ _ true (ny * (gx - 1) + gy)); [|etransitivity; [cmp|f_equal; apply Z.ltb_lt; lia]|intros _; apply Col; [coord|coord|lia]]. cbn [obind].
  rewrite (@put_ok smax T _ _ _ (0 <? gy) (ny * gx + (gy - 1))); [|cmp|intros Hlt; apply Z.ltb_lt in Hlt; apply Col; [coord|coord|lia]]. cbn [obind].
  rewrite (@put_ok smax T _ _ _ true g); [|reflexivity|intros _; apply Col; [coord|coord|lia]]. cbn [obind].
  rewrite (@put_ok smax T _ _ _ (gy + 1 <? ny) (ny * gx + (gy + 1))); [|cmp|intros Hlt; apply Z.ltb_lt in Hlt; apply Col; [coord|coord|lia]]. cbn [obind].
  rewrite (@put_ok smax T _ _ _ false 0) by ((etransitivity; [cmp|f_equal; apply Z.ltb_ge; lia]) || discriminate). cbn [obind app]. eexists. reflexivity.
Qed.
End Outside.
Theorem C86_petsc_unused_sizes : forall (T : Type) (lit : Z -> Z -> T) smax nx ny nz, 1 <= smax <= 2 ^ 63 - 1 -> 1 <= nx -> 1 <= ny -> 1 <= nz -> nx * ny * nz <= smax ->
  (1 < ny * nz -> exists calls, petsc_process lit LAPLACIAN_1D_3POINT smax nx ny nz 0 (nx * ny * nz) = Ok calls /\
    In (nx, nx - 1, lit (-1) 1) calls /\ forall v, ~ In (nx - 1, nx, v) calls) /\
  (1 < nz -> exists calls, petsc_process lit LAPLACIAN_2D_5POINT smax nx ny nz 0 (nx * ny * nz) = Ok calls /\
    In (nx * ny, (nx - 1) * ny, lit (-1) 1) calls /\ forall v, ~ In ((nx - 1) * ny, nx * ny, v) calls).
Proof.
  intros T lit smax nx ny nz Hmax Hx Hy Hz Hn. assert (1 <= ny * nz) by nia. assert (nx <= nx * (ny * nz)) by nia. assert (nx <= smax) by lia.
  assert (Ex : evals smax (Ok (Sgn nx)) nx) by (apply evals_sgn; lia).
  assert (Ap : forall b t p n l, row_calls lit smax t (Ok (Sgn nx)) (Ok (Sgn ny)) (Ok (Sgn nz)) (Ok (Sgn n)) = Ok (flat_map (at_offset lit b t p) (peer_order t)) ->
    row_calls lit smax t (Ok (Sgn nx)) (Ok (Sgn ny)) (Ok (Sgn nz)) (Ok (Sgn n)) = Ok l -> forall j v, In (j, v) l -> j < volume b).
  { intros b t p n l E1 E2 j v Hin. rewrite E1 in E2. injection E2 as <-. apply in_flat_map in Hin. destruct Hin as [oe [_ Hin]]. unfold at_offset in Hin.
    destruct (contains b (padd p (fst oe))) eqn:C; [|destruct Hin]. destruct Hin as [Hin|[]]. injection Hin as <- _. apply contains_iff in C. apply (linearize_range ROW_MAJOR) in C. cbn [linearize] in C. lia. }
  split; intros Hu.
  - assert (nx < nx * (ny * nz)) by nia.
    destruct (@petsc_rows_in T lit LAPLACIAN_1D_3POINT smax nx ny nz (upto 0 (nx * ny * nz))) as [calls [E I]].
    + intros g Hg. unfold upto in Hg. apply in_zrange in Hg. destruct (Z.lt_ge_cases g nx).
      * eexists. apply (@row1 T lit smax Hmax nx); (assumption || lia).
      * eexists. apply outside1; lia.
    + exists calls. split; [exact E|]. split.
      * apply I. split; [unfold upto; apply in_zrange; lia|]. eexists. split; [apply outside1; lia|]. left. reflexivity.
      * intros v Hin. apply I in Hin. destruct Hin as [_ [l [E1 Hin]]]. assert (R := @row1 T lit smax Hmax nx ltac:(lia) _ (Ok (Sgn ny)) (Ok (Sgn nz)) Ex (nx - 1) ltac:(lia)).
        assert (L := Ap _ _ _ _ _ R E1 _ _ Hin). unfold volume in L. cbn [lo hi volume_aux] in L. replace (nx - 1 <? 0) with false in L by (symmetry; apply Z.ltb_ge; lia). lia.
  - assert (nx * ny < nx * ny * nz) by nia. assert (ny <= nx * ny) by nia. assert (Ey : evals smax (Ok (Sgn ny)) ny) by (apply evals_sgn; lia).
    destruct (@petsc_rows_in T lit LAPLACIAN_2D_5POINT smax nx ny nz (upto 0 (nx * ny * nz))) as [calls [E I]].
    + intros g Hg. unfold upto in Hg. apply in_zrange in Hg. assert (D := Z.div_mod g ny ltac:(lia)). assert (B := Z.mod_pos_bound g ny ltac:(lia)). assert (0 <= g / ny) by (apply Z.div_pos; lia).
      rewrite D. destruct (Z.lt_ge_cases (g / ny) nx).
      * eexists. apply (@row2 T lit smax Hmax nx ny Hx Hy); (assumption || lia).
      * destruct (@outside2 T lit smax nx ny nz Hmax Hx Hy (g / ny) (g mod ny)) as [l El]; [lia|lia|lia|]. eexists. exact El.
    + exists calls. split; [exact E|]. split.
      * apply I. split; [unfold upto; apply in_zrange; lia|]. destruct (@outside2 T lit smax nx ny nz Hmax Hx Hy nx 0) as [l El]; [lia|lia|lia|].
        replace (ny * nx + 0) with (nx * ny) in El by ring. replace (ny * (nx - 1) + 0) with ((nx - 1) * ny) in El by ring. eexists. split; [exact El|]. left. reflexivity.
      * intros v Hin. apply I in Hin. destruct Hin as [_ [l [E1 Hin]]]. assert (R := @row2 T lit smax Hmax nx ny Hx Hy ltac:(lia) _ _ (Ok (Sgn nz)) Ex Ey (nx - 1) 0 ltac:(lia) ltac:(lia)).
        replace (ny * (nx - 1) + 0) with ((nx - 1) * ny) in R by ring.
        assert (L := Ap _ _ _ _ _ R E1 _ _ Hin). unfold volume in L. cbn [lo hi volume_aux] in L. replace (nx - 1 <? 0) with false in L by (symmetry; apply Z.ltb_ge; lia). replace (ny - 1 <? 0) with false in L by (symmetry; apply Z.ltb_ge; lia). lia.
Qed.
(** Trilinos: a process that owns 2^31 rows or more (and fewer than 2^32) inserts nothing, because the number of its rows
    is converted to int; a missing size argument is undefined behaviour *)
Theorem C86_trilinos_local_overflow : forall (T : Type) (lit : Z -> Z -> T) t nx ny nz owned, 2 ^ 31 <= Z.of_nat (length owned) < 2 ^ 32 ->
  trilinos_process lit t nx ny nz owned = Ok [].
Proof.
  intros T lit t nx ny nz owned H. unfold trilinos_process, to_int32. rewrite Z.mod_small by lia. destruct (Z.ltb_spec (Z.of_nat (length owned)) (2 ^ 31)); [lia|].
  replace (Z.to_nat (Z.of_nat (length owned) - 2 ^ 32)) with 0%nat by lia. reflexivity.
Qed.
Theorem C86_trilinos_missing_size : forall t arg i, (3 <= i <= 2 + match t with LAPLACIAN_1D_3POINT => 1 | LAPLACIAN_2D_5POINT => 2 | _ => 3 end)%nat -> arg i = None ->
  trilinos_sizes t arg = UB.
Proof.
  intros t arg i H E. assert (i = 3 \/ i = 4 \/ i = 5)%nat as D by (destruct t; lia).
  unfold trilinos_sizes. destruct t; destruct D as [D|[D|D]]; subst i; try lia; rewrite E; try reflexivity; destruct (arg 5%nat); try reflexivity; destruct (arg 4%nat); reflexivity.
Qed.

(** ** The hypotheses are met: a 3 x 2 grid on two processes *)
Example C86_example : exists pieces tr size fuel sorted,
  create_linearized_csr_stencil (fun _ _ : Z => false) fuel ROW_MAJOR (benchmark_box 2 3 2 1) (stencil_of (fun n _ => n) 2) sorted pieces tr size /\ size = 20 /\
  sizes_for LAPLACIAN_2D_5POINT 3 2 1 /\ consecutive 0 6 [(0, 4); (4, 6)] /\
  arguments LAPLACIAN_2D_5POINT 3 2 1 (fun i => nth_error [0; 0; 0; 3; 2] i) /\
  petsc_process (fun n _ => n) LAPLACIAN_2D_5POINT (2 ^ 31 - 1) 3 2 1 4 6 = Ok [(4, 2, -1); (4, 4, 4); (4, 5, -1); (5, 3, -1); (5, 4, -1); (5, 5, 4)] /\
  trilinos_process (fun n _ => n) LAPLACIAN_2D_5POINT 3 2 1 [4; 5] = Ok [(4, 2, -1); (4, 4, 4); (4, 5, -1); (5, 3, -1); (5, 4, -1); (5, 5, 4)].
Proof.
  set (b := benchmark_box 2 3 2 1). set (offs := stencil_of (fun n _ : Z => n) 2).
  set (sorted := [([-1; 0], -1); ([0; -1], -1); ([0; 0], 4); ([0; 1], -1); ([1; 0], -1)] : list (point * Z)).
  destruct (@benchmark_nonempty 2 3 2 1) as [Hn Hlo]; try lia. assert (Hwf := nonempty_wf _ Hn).
  assert (Hd : offsets_dim b offs) by apply stencil_of_dim.
  assert (Hs : std_sort (fun _ _ : Z => false) ROW_MAJOR offs sorted).
  { split; [|repeat constructor]. unfold offs, sorted, stencil_of. cbn. apply NoDup_Permutation_bis; [|cbn; lia|].
    - repeat (constructor; [cbn [In]; intros H; repeat (destruct H as [H|H]; [discriminate H|]); exact H|]); constructor.
    - intros x H. cbn [In] in *. tauto. }
  assert (Hds : offsets_dim b sorted) by (unfold offsets_dim; eapply Permutation_Forall; [apply Hs|exact Hd]).
  destruct (C20_stencil_size_exact Hlo Hwf Hd) as [[F1 HF1] _]. destruct (@fill_lin_csr_terminates _ ROW_MAJOR b sorted Hlo Hn Hds) as [F2 HF2].
  set (full := fun n => mk_dom1 0 (n - 1) (fun k => (0 <=? k) && (k <=? n - 1))).
  set (size := Z.of_nat (length (in_bounds_pairs b offs))) in *.
  destruct (HF2 (F1 + F2)%nat (full size) (full (volume b)) ltac:(lia)) as [t Ht]; [cbn; intros; lia|cbn; intros; lia|left; cbn; lia|].
  exists [(full size, full (volume b))], t, size, (F1 + F2)%nat, sorted. split.
  - split; [apply HF1; lia|]. split; [apply one_piece_range; intros k; unfold kernel_space; lia|]. split; [apply one_piece_range; intros k; reflexivity|].
    split; [constructor; [|constructor]; cbn; split; [intros; lia|split; [cbn; intros; lia|cbn; lia]]|].
    split; [exact Hs|]. exists [t]. split; [constructor; [exact Ht|constructor]|]. replace t with (concat [t]) at 2 by apply app_nil_r. apply interleave_concat.
  - split; [reflexivity|]. split; [repeat split; lia|]. split; [cbn; lia|]. repeat split; reflexivity.
Qed.
