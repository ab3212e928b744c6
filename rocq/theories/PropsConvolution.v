(** PropsConvolution: property C29.  Multiplying by a matrix built by one of the stencil creators is a convolution with
    zero boundary, in every storage format, for every partition and schedule. *)
From Coq Require Import Reals Lra.
From Verif Require Import Base Index IndexSpec IndexFacts Outcome Sched Async Arith Launch Vector PartitionSpec VectorFacts LaunchFacts
  Matrix MatrixSpec MatrixFacts MatvecFacts ExactSum PropsVector PropsMatrix Exec LinAlg
  StencilSpec StencilSize StencilSizeFacts StencilFill StencilFillFacts StencilLaunch StencilCreate ExampleSystems PropsStencil.
Set Implicit Arguments.

(** The matrix objects a user gets: one of the creators run with any partition into pieces, any interleaving of its fill
    tasks and any initial memory, wrapped in a COOMatrix / CSRMatrix object.  [rows] is the handle of the row index space.
    The boolean says whether coordinates are stored linearised. *)
Inductive stencil_matrix {T} (A : arith T) (ltT : T -> T -> bool) (o : IndexOrder) (b : rect) (offs : list (point * T)) (rows : nat) :
    bool -> matrix T -> Prop :=
| sm_coo linear fuel sorted pieces tr size s : create_coo_stencil ltT linear fuel o b offs sorted pieces tr size ->
    stencil_matrix A ltT o b offs rows linear (COO (coo_of A (run loc_eq_dec tr s) size))
| sm_csr fuel sorted pieces tr size s : create_csr_stencil ltT fuel o b offs sorted pieces tr size ->
    stencil_matrix A ltT o b offs rows false (CSR (csr_of A (run loc_eq_dec tr s) size rows))
| sm_linearized_csr fuel sorted pieces tr size s : create_linearized_csr_stencil ltT fuel o b offs sorted pieces tr size ->
    stencil_matrix A ltT o b offs rows true (CSR (csr_of A (run loc_eq_dec tr s) size rows)).

(** the index space of the vectors is the grid (or its linearisation) *)
Definition grid_space (linear : bool) (o : IndexOrder) (b : rect) (pts : list point) : Prop :=
  forall q, In q pts <-> exists p, in_box b p /\ q = stored linear o b p.

Section Facts.
Variable T : Type.
Variable A : arith T.
Variable ltT : T -> T -> bool.
Variable o : IndexOrder.
Variable b : rect.
Variable offs : list (point * T).
Hypothesis Hlo : lo b <> [].
Hypothesis Hn : nonempty_box b.
Hypothesis Hd : offsets_dim b offs.

Lemma stored_inj linear p q : in_box b p -> in_box b q -> stored linear o b p = stored linear o b q -> p = q.
Proof.
  intros Hp Hq. destruct linear; cbn [stored]; [|exact (fun H => H)]. intros H. injection H as H. eapply linearize_inj; eassumption.
Qed.
Lemma contents_in (sorted : list (point * T)) k r c e : nth_error (stencil_contents o b sorted) k = Some (r, c, e) -> in_box b r /\ in_box b c.
Proof.
  intros H. apply nth_error_In in H. unfold stencil_contents in H. apply in_flat_map in H. destruct H as [p [Hp H]].
  unfold stencil_row in H. apply in_map_iff in H. destruct H as [oe [E H]]. injection E as <- <- <-. apply filter_In in H.
  split; [apply (in_box_points o b p (nonempty_wf _ Hn)); exact Hp|apply contains_iff; apply H].
Qed.

Lemma stencil_matrix_facts rows linear m : stencil_matrix A ltT o b offs rows linear m ->
  exists sorted, std_sort ltT o offs sorted /\
    positions m = kernel_points (Z.of_nat (length (stencil_contents o b sorted))) /\
    match m with COO _ => True | CSR c => cs_rows c = rows end /\
    (forall k r c e, nth_error (stencil_contents o b sorted) k = Some (r, c, e) ->
       PropsMatrix.column m [Z.of_nat k] = stored linear o b c /\ value m [Z.of_nat k] = e /\
       forall p, in_box b p -> in_row m (stored linear o b p) [Z.of_nat k] = if point_eq_dec r p then true else false).
Proof.
  assert (Hwf := nonempty_wf _ Hn).
  assert (CSRcase : forall enc sorted mem, holds_csr enc mem (stencil_contents o b sorted) (box_points o b) (row_first o b sorted) (row_last o b sorted) ->
    forall k r c e, nth_error (stencil_contents o b sorted) k = Some (r, c, e) ->
      as_point (mem (LCol (Z.of_nat k))) = enc c /\ as_entry (a0 A) (mem (LEntry (Z.of_nat k))) = e /\
      forall p, in_box b p -> contains (as_rect (mem (LRowptr (enc p)))) [Z.of_nat k] = if point_eq_dec r p then true else false).
  { intros enc sorted mem [M1 M2] k r c e Hk. destruct (M1 k r c e Hk) as [E1 E2]. rewrite E1, E2. split; [reflexivity|]. split; [reflexivity|].
    intros p Hp. apply (in_box_points o b p Hwf) in Hp. apply In_nth_error in Hp. destruct Hp as [i Hi].
    rewrite (M2 i p Hi). cbn [as_rect]. assert (R := row_interval o sorted i k Hwf Hi Hk). cbn [fst] in R.
    unfold contains. cbn [lo hi contains_aux]. rewrite andb_true_r.
    destruct (point_eq_dec r p) as [E|E].
    - apply R in E. apply andb_true_iff. split; apply Z.leb_le; lia.
    - apply not_true_iff_false. intros C. apply E, R. apply andb_true_iff in C. destruct C as [C1 C2]. apply Z.leb_le in C1, C2. lia. }
  intros [l fuel sorted pieces tr size s Hc|fuel sorted pieces tr size s Hc|fuel sorted pieces tr size s Hc]; exists sorted.
  - destruct (coo_stencil_memory s Hlo Hwf Hd Hc) as (-> & Hs & Hm). split; [exact Hs|]. split; [reflexivity|]. split; [exact I|].
    intros k r c e Hk. destruct (Hm k r c e Hk) as [E1 [E2 E3]].
    cbn [PropsMatrix.column value in_row coo_of co_row co_col co_entry kernel_index hd]. rewrite E1, E2, E3.
    split; [reflexivity|]. split; [reflexivity|]. intros p Hp. cbn [as_point]. destruct (contents_in _ _ Hk) as [Hr _].
    destruct (point_eq_dec r p) as [->|N]; [destruct (point_eq_dec _ _) as [_|C]; [reflexivity|congruence]|].
    destruct (point_eq_dec _ _) as [C|_]; [|reflexivity]. exfalso. apply N. eapply stored_inj; eassumption.
  - destruct (csr_stencil_memory s Hlo Hwf Hd Hc) as (-> & Hs & Hm). split; [exact Hs|]. split; [reflexivity|]. split; [reflexivity|].
    intros k r c e Hk. cbn [PropsMatrix.column value in_row csr_of cs_col cs_entry cs_rowptr kernel_index hd stored].
    exact (@CSRcase (fun p => p) sorted _ Hm k r c e Hk).
  - destruct (linearized_csr_stencil_memory s Hlo Hn Hd Hc) as (-> & Hs & Hm). split; [exact Hs|]. split; [reflexivity|]. split; [reflexivity|].
    intros k r c e Hk. cbn [PropsMatrix.column value in_row csr_of cs_col cs_entry cs_rowptr kernel_index hd stored].
    exact (@CSRcase (fun p => [linearize o b p]) sorted _ Hm k r c e Hk).
Qed.

(** choosing positions by row = choosing triples by row *)
Lemma fold_positions X Y (f : X -> point -> X) (g : X -> Y -> X) (P : point -> bool) (Q : Y -> bool) (cs : list Y) :
  forall a x0, (forall k t, nth_error cs k = Some t -> P [Z.of_nat (a + k)] = Q t /\ forall x, f x [Z.of_nat (a + k)] = g x t) ->
  fold_left f (filter P (map (fun i => [Z.of_nat i]) (seq a (length cs)))) x0 = fold_left g (filter Q cs) x0.
Proof.
  induction cs as [|t cs IH]; intros a x0 H; [reflexivity|]. cbn [length seq map filter].
  destruct (H 0 t eq_refl) as [E1 E2]. rewrite Nat.add_0_r in E1, E2. rewrite E1.
  assert (H' : forall k t', nth_error cs k = Some t' -> P [Z.of_nat (S a + k)] = Q t' /\ forall x, f x [Z.of_nat (S a + k)] = g x t').
  { intros k t' Hk. replace (S a + k) with (a + S k) by lia. apply H. exact Hk. }
  destruct (Q t); cbn [fold_left]; [rewrite E2|]; apply IH; exact H'.
Qed.
Lemma contents_row (sorted : list (point * T)) p : In p (box_points o b) ->
  filter (fun t : point * point * T => if point_eq_dec (fst (fst t)) p then true else false) (stencil_contents o b sorted) = stencil_row b sorted p.
Proof.
  intros Hp. unfold stencil_contents. assert (Hnd := NoDup_box_points o b). revert Hnd Hp. generalize (box_points o b) as L.
  assert (Same : forall r, filter (fun t : point * point * T => if point_eq_dec (fst (fst t)) p then true else false) (stencil_row b sorted r)
     = if point_eq_dec r p then stencil_row b sorted r else []).
  { intros r. unfold stencil_row. generalize (filter (fun oe : point * T => contains b (padd r (fst oe))) sorted) as l.
    induction l as [|oe l IH]; [destruct (point_eq_dec r p); reflexivity|]. cbn [map filter fst]. rewrite IH. destruct (point_eq_dec r p); reflexivity. }
  assert (Other : forall L, ~ In p L -> filter (fun t : point * point * T => if point_eq_dec (fst (fst t)) p then true else false) (flat_map (stencil_row b sorted) L) = []).
  { induction L as [|r L IH]; intros H; [reflexivity|]. cbn [flat_map]. rewrite filter_app, Same, IH by (intros C; apply H; right; exact C).
    destruct (point_eq_dec r p) as [->|]; [exfalso; apply H; left; reflexivity|reflexivity]. }
  induction L as [|r L IH]; intros Hnd Hp; [destruct Hp|]. inversion Hnd; subst. cbn [flat_map]. rewrite filter_app, Same.
  destruct (point_eq_dec r p) as [->|N].
  - rewrite Other by assumption. apply app_nil_r.
  - destruct Hp as [->|Hp]; [congruence|]. apply IH; assumption.
Qed.
End Facts.

(** ** C29.  In any arithmetic: entry p of the destination gets, one after the other in the sorted order of the offsets,
    e * x[p + off] for the offsets whose shifted point is inside; nothing else changes. *)
Theorem C29_stencil_matvec_is_convolution : forall (T : Type) (A : arith T) (ltT : T -> T -> bool) (o : IndexOrder) (b : rect)
    (offs : list (point * T)) (lg : legion) (linear : bool) (m : matrix T) (dst src : pvec),
  lo b <> [] -> nonempty_box b -> offsets_dim b offs ->
  legion_ok lg -> constructed lg dst ->
  grid_space linear o b (is_points lg (pv_space dst)) -> grid_space linear o b (is_points lg (pv_space src)) ->
  stencil_matrix A ltT o b offs (pv_space dst) linear m ->
  (distinct_storage dst src -> exists ln, derived_matvec A lg m dst src = Ok ln) /\
  exists sorted, std_sort ltT o offs sorted /\
    forall ln s s', derived_matvec A lg m dst src = Ok ln -> launches_end [ln] s s' ->
    (forall p, in_box b p ->
       s' (at_point dst (stored linear o b p)) =
       fold_left (fun acc oe => aadd A acc (amul A (snd oe) (s (at_point src (stored linear o b (padd p (fst oe)))))))
         (filter (fun oe => contains b (padd p (fst oe))) sorted)
         (s (at_point dst (stored linear o b p)))) /\
    (forall l, (forall p, in_box b p -> l <> at_point dst (stored linear o b p)) -> s' l = s l).
Proof.
  intros T A ltT o b offs lg linear m dst src Hlo Hn Hd Hlg Hc Gd Gs Hm.
  destruct (stencil_matrix_facts Hlo Hn Hd Hm) as (sorted & Hs & Hpos & Hrows & Hk).
  assert (Hfit : fits m dst) by (destruct m; [exact I|symmetry; exact Hrows]).
  split; [intros Hds; exact (@derived_accepts T A lg m dst src Hc Hfit Hds)|].
  exists sorted. split; [exact Hs|]. intros ln s s' Hln He.
  assert (Hkp : forall kp, In kp (positions m) -> exists k t, kp = [Z.of_nat k] /\ nth_error (stencil_contents o b sorted) k = Some t).
  { intros kp H. rewrite Hpos in H. unfold kernel_points in H. rewrite Nat2Z.id in H. apply in_map_iff in H. destruct H as [k [<- H]]. apply in_seq in H.
    destruct (nth_error (stencil_contents o b sorted) k) as [t|] eqn:E; [exists k, t; split; [reflexivity|exact E]|]. apply nth_error_None in E. lia. }
  assert (Hok : matrix_ok lg m).
  { destruct m as [c|c]; [exact I|]. cbn [matrix_ok]. intros kp r1 r2 H1 H2 H3 H4 H5. cbn [positions] in Hkp. destruct (Hkp kp H1) as [k [[[r c0] e] [-> Ek]]].
    rewrite Hrows in H2, H3. apply Gd in H2. apply Gd in H3. destruct H2 as [p1 [P1 ->]]. destruct H3 as [p2 [P2 ->]].
    destruct (Hk k r c0 e Ek) as [_ [_ R]]. cbn [in_row] in R. rewrite R in H4, H5 by assumption.
    destruct (point_eq_dec r p1); [|discriminate]. destruct (point_eq_dec r p2); [|discriminate]. congruence. }
  destruct (@derived_effect T A lg Hlg m dst src ln s s' Hc Hok Hln He) as [U1 U2]. split.
  - intros p Hp. rewrite (U1 (stored linear o b p)) by (apply Gd; exists p; split; [exact Hp|reflexivity]).
    unfold add_products, PropsMatrix.row_entries. rewrite Hpos. unfold kernel_points. rewrite Nat2Z.id.
    rewrite (@fold_positions T (point * point * T) _ (fun acc t => aadd A acc (amul A (snd t) (s (at_point src (stored linear o b (snd (fst t)))))))
       _ (fun t => if point_eq_dec (fst (fst t)) p then true else false) (stencil_contents o b sorted) 0).
    + rewrite contents_row by (apply (in_box_points o b p (nonempty_wf _ Hn)); exact Hp). unfold stencil_row.
      generalize (filter (fun oe : point * T => contains b (padd p (fst oe))) sorted) as l. intros l.
      generalize (s (at_point dst (stored linear o b p))) as y. induction l as [|oe l IH]; intros y; [reflexivity|]. cbn [map fold_left fst snd]. apply IH.
    + intros k [[r c] e] Ek. rewrite Nat.add_0_l. destruct (Hk k r c e Ek) as [E1 [E2 E3]]. cbn [fst snd]. rewrite E1, E2, E3 by exact Hp. split; [|reflexivity].
      assert (Hcb : in_box b c) by (eapply contents_in; [exact Hn|exact Ek]).
      assert (M : mem (stored linear o b c) (is_points lg (pv_space src)) = true) by (apply mem_spec, Gs; exists c; split; [exact Hcb|reflexivity]).
      rewrite M, andb_true_r. reflexivity.
  - intros l Hl. apply U2. intros q Hq. apply Gd in Hq. destruct Hq as [p [Hp ->]]. apply Hl. exact Hp.
Qed.

(** *** Real numbers: y[p] + sum over the offsets of e * x[p + off], x being zero outside the grid. *)
Definition zero_outside (b : rect) (x : point -> R) (p : point) : R := if contains b p then x p else 0%R.
Definition convolve (b : rect) (offs : list (point * R)) (x : point -> R) (p : point) : R :=
  Rsum (fun oe => snd oe * zero_outside b x (padd p (fst oe)))%R offs.
(** grid function [x] is stored in vector [v] *)
Definition holds_grid (linear : bool) (o : IndexOrder) (b : rect) (s : Launch.loc -> option R) (v : pvec) (x : point -> R) : Prop :=
  forall p, in_box b p -> s (at_point v (stored linear o b p)) = Some (x p).
Definition real_offsets (offs : list (point * R)) : list (point * option R) := map (fun oe => (fst oe, Some (snd oe))) offs.

Theorem C29_stencil_matvec_real : forall ltT (o : IndexOrder) (b : rect) (offs : list (point * R)) (lg : legion) (linear : bool)
    (m : matrix (option R)) (dst src : pvec) ln s s' (x y : point -> R),
  lo b <> [] -> nonempty_box b -> offsets_dim b offs ->
  legion_ok lg -> constructed lg dst ->
  grid_space linear o b (is_points lg (pv_space dst)) -> grid_space linear o b (is_points lg (pv_space src)) ->
  stencil_matrix exact ltT o b (real_offsets offs) (pv_space dst) linear m ->
  derived_matvec exact lg m dst src = Ok ln -> launches_end [ln] s s' ->
  holds_grid linear o b s src x -> holds_grid linear o b s dst y ->
  holds_grid linear o b s' dst (fun p => y p + convolve b offs x p)%R.
Proof.
  intros ltT o b offs lg linear m dst src ln s s' x y Hlo Hn Hd Hlg Hc Gd Gs Hm Hln He Hx Hy p Hp.
  assert (Hd' : offsets_dim b (real_offsets offs)).
  { unfold offsets_dim, real_offsets in *. rewrite Forall_map. exact Hd. }
  destruct (C29_stencil_matvec_is_convolution src Hlo Hn Hd' Hlg Hc Gd Gs Hm) as (_ & sorted & [Hs _] & U).
  destruct (U ln s s' Hln He) as [U1 _]. rewrite (U1 p Hp), (Hy p Hp). clear U U1.
  assert (E : exists sr, sorted = real_offsets sr /\ Permutation offs sr).
  { unfold real_offsets in *. apply Permutation_sym, Permutation_map_inv in Hs. destruct Hs as [l [-> Hl]]. exists l. split; [reflexivity|exact Hl]. }
  destruct E as [sr [-> Hp']]. unfold convolve. rewrite (Rsum_perm _ Hp').
  generalize (y p) as y0. clear Hs Hp'. unfold real_offsets. induction sr as [|[oo e] sr IH]; intros y0; cbn [map filter fst snd].
  - cbn [fold_left]. rewrite Rsum_nil. f_equal. ring.
  - rewrite Rsum_cons. cbn [fst snd]. unfold zero_outside at 1. destruct (contains b (padd p oo)) eqn:C; cbn [fold_left fst snd].
    + assert (Hq : in_box b (padd p oo)) by (apply contains_iff; exact C). rewrite (Hx _ Hq). cbn [exact amul aadd lift2]. rewrite IH. f_equal. ring.
    + rewrite IH. f_equal. ring.
Qed.

(** *** A symmetric stencil gives a symmetric operator *)
(** total value attached to the offset vector [v]; a stencil is symmetric when v and -v carry the same value *)
Definition coefficient (offs : list (point * R)) (v : point) : R := Rsum (fun oe => if point_eq_dec (fst oe) v then snd oe else 0%R) offs.
Definition popp (v : point) : point := map Z.opp v.
Definition symmetric_stencil (b : rect) (offs : list (point * R)) : Prop :=
  forall v, length v = length (lo b) -> coefficient offs v = coefficient offs (popp v).

Lemma padd_shift p q v : length p = length v -> length q = length v -> padd p v = q <-> v = padd q (popp p).
Proof.
  revert q v. induction p as [|x p IH]; intros [|y q] [|z v] H1 H2; try discriminate; cbn [padd popp map] in *; [split; reflexivity|].
  injection H1 as H1. injection H2 as H2. specialize (IH q v H1 H2). unfold popp in IH.
  split; intros H; injection H as Ha Hb; f_equal; try lia; apply IH; exact Hb.
Qed.
Lemma popp_diff p q : length p = length q -> popp (padd q (popp p)) = padd p (popp q).
Proof.
  revert q. induction p as [|x p IH]; intros [|y q] H; try discriminate; [reflexivity|]. injection H as H. cbn [padd popp map] in *. f_equal; [lia|]. apply IH. exact H.
Qed.
Lemma popp_length p : length (popp p) = length p.
Proof. apply map_length. Qed.
Lemma diff_length p q : length p = length q -> length (padd q (popp p)) = length q.
Proof. intros H. apply padd_length. rewrite popp_length. congruence. Qed.
Lemma Rsum_pick (f : point -> R) (a : point) l : NoDup l -> Rsum (fun q => if point_eq_dec q a then f q else 0%R) l = if mem a l then f a else 0%R.
Proof.
  induction l as [|q l IH]; intros Hnd; [rewrite Rsum_nil; reflexivity|]. inversion Hnd as [|? ? Hq Hnd']; subst. rewrite Rsum_cons, IH by exact Hnd'.
  destruct (point_eq_dec q a) as [->|N].
  - assert (M1 : mem a l = false) by (apply not_true_iff_false; intros C; apply mem_spec in C; contradiction).
    assert (M2 : mem a (a :: l) = true) by (apply mem_spec; left; reflexivity). rewrite M1, M2. ring.
  - assert (M : mem a (q :: l) = mem a l).
    { destruct (mem a l) eqn:E; [apply mem_spec; right; apply mem_spec; exact E|]. apply not_true_iff_false. intros C. apply mem_spec in C.
      destruct C as [C|C]; [congruence|]. apply mem_spec in C. congruence. }
    rewrite M. ring.
Qed.
(** the convolution as a matrix indexed by pairs of grid points *)
Lemma convolve_operator o b offs x p : wf_box b -> offsets_dim b offs -> in_box b p ->
  convolve b offs x p = app_op (box_points o b) (fun p q => coefficient offs (padd q (popp p))) x p.
Proof.
  intros Hwf Hd Hp. unfold app_op, convolve, coefficient.
  rewrite (Rsum_ext (fun v => Rsum (fun oe => if point_eq_dec (fst oe) (padd v (popp p)) then snd oe else 0) offs * x v)%R
    (fun v => Rsum (fun oe => x v * (if point_eq_dec (fst oe) (padd v (popp p)) then snd oe else 0)) offs)%R) by (intros q _; rewrite Rsum_scal; ring).
  rewrite Rsum_swap. apply Rsum_ext. intros [v e] Hin. cbn [fst snd].
  unfold offsets_dim in Hd. rewrite Forall_forall in Hd. specialize (Hd _ Hin). cbn [fst] in Hd.
  assert (Lp : length p = length v) by (destruct Hp as [Hp _]; congruence).
  rewrite (Rsum_ext _ (fun q => if point_eq_dec q (padd p v) then (e * x q)%R else 0%R)).
  - rewrite Rsum_pick by apply NoDup_box_points. unfold zero_outside.
    assert (M : mem (padd p v) (box_points o b) = contains b (padd p v)).
    { destruct (contains b (padd p v)) eqn:C.
      - apply mem_spec, (in_box_points o b _ Hwf), contains_iff. exact C.
      - apply not_true_iff_false. intros M. apply mem_spec, (in_box_points o b _ Hwf), contains_iff in M. congruence. }
    rewrite M. destruct (contains b (padd p v)); ring.
  - intros q Hq. apply (in_box_points o b _ Hwf) in Hq. assert (Lq : length q = length v) by (destruct Hq as [Hq _]; congruence).
    assert (S := padd_shift p q v Lp Lq).
    destruct (point_eq_dec v (padd q (popp p))) as [E1|E1]; destruct (point_eq_dec q (padd p v)) as [E2|E2]; try ring.
    + exfalso. apply E2. symmetry. apply S. exact E1.
    + exfalso. apply E1. apply S. symmetry. exact E2.
Qed.

Theorem C29_symmetric_stencil_symmetric_operator : forall ltT (o : IndexOrder) (b : rect) (offs : list (point * R)) (lg : legion) (linear : bool)
    (m : matrix (option R)) (dst1 dst2 src1 src2 : pvec) ln1 ln2 s1 s1' s2 s2' (x y ax ay : point -> R),
  lo b <> [] -> nonempty_box b -> offsets_dim b offs -> symmetric_stencil b offs ->
  legion_ok lg -> constructed lg dst1 -> constructed lg dst2 -> pv_space dst1 = pv_space dst2 ->
  grid_space linear o b (is_points lg (pv_space dst1)) ->
  grid_space linear o b (is_points lg (pv_space src1)) -> grid_space linear o b (is_points lg (pv_space src2)) ->
  stencil_matrix exact ltT o b (real_offsets offs) (pv_space dst1) linear m ->
  (* dst1 = A x and dst2 = A y, each computed into a zero vector *)
  derived_matvec exact lg m dst1 src1 = Ok ln1 -> launches_end [ln1] s1 s1' ->
  holds_grid linear o b s1 src1 x -> holds_grid linear o b s1 dst1 (fun _ => 0%R) -> holds_grid linear o b s1' dst1 ax ->
  derived_matvec exact lg m dst2 src2 = Ok ln2 -> launches_end [ln2] s2 s2' ->
  holds_grid linear o b s2 src2 y -> holds_grid linear o b s2 dst2 (fun _ => 0%R) -> holds_grid linear o b s2' dst2 ay ->
  Rsum (fun p => x p * ay p)%R (box_points o b) = Rsum (fun p => ax p * y p)%R (box_points o b).
Proof.
  intros ltT o b offs lg linear m dst1 dst2 src1 src2 ln1 ln2 s1 s1' s2 s2' x y ax ay Hlo Hn Hd Hsym Hlg Hc1 Hc2 Esp Gd Gs1 Gs2 Hm
    L1 E1 X1 Z1 R1 L2 E2 X2 Z2 R2.
  assert (Hwf := nonempty_wf _ Hn).
  assert (A1 := C29_stencil_matvec_real Hlo Hn Hd Hlg Hc1 Gd Gs1 Hm L1 E1 X1 Z1).
  assert (Gd2 : grid_space linear o b (is_points lg (pv_space dst2))) by (rewrite <- Esp; exact Gd).
  assert (Hm2 : stencil_matrix exact ltT o b (real_offsets offs) (pv_space dst2) linear m) by (rewrite <- Esp; exact Hm).
  assert (A2 := C29_stencil_matvec_real Hlo Hn Hd Hlg Hc2 Gd2 Gs2 Hm2 L2 E2 X2 Z2).
  set (a := fun p q => coefficient offs (padd q (popp p))).
  assert (F : forall z az v s', holds_grid linear o b s' v az -> holds_grid linear o b s' v (fun p => 0 + convolve b offs z p)%R ->
     forall p, In p (box_points o b) -> az p = app_op (box_points o b) a z p).
  { intros z az v s' H1 H2 p Hp. apply (in_box_points o b _ Hwf) in Hp. assert (E := H1 p Hp). rewrite (H2 p Hp) in E. injection E as E.
    rewrite <- E, Rplus_0_l. apply convolve_operator; assumption. }
  assert (Sy : symmetric (box_points o b) a).
  { intros p q Hp Hq. apply (in_box_points o b _ Hwf) in Hp. apply (in_box_points o b _ Hwf) in Hq.
    assert (Lpq : length p = length q) by (destruct Hp as [Hp _]; destruct Hq as [Hq _]; congruence).
    unfold a. rewrite Hsym, popp_diff by (rewrite ?diff_length by congruence; destruct Hq as [Hq _]; congruence). reflexivity. }
  assert (S := symmetric_ip x y Sy). unfold ip in S.
  rewrite (Rsum_ext _ (fun p => x p * app_op (box_points o b) a y p)%R) by (intros p Hp; rewrite (F y ay dst2 s2' R2 A2 p Hp); reflexivity).
  rewrite S. apply Rsum_ext. intros p Hp. rewrite (F x ax dst1 s1' R1 A1 p Hp). reflexivity.
Qed.

(** *** A concrete case: the stencil 2 at 0, -1 at +1 and -1 on the grid 0..1, built as a COO matrix by two fill tasks *)
Definition cv_box : rect := mk_rect [0]%Z [1]%Z.
Definition cv_offs : list (point * R) := [([0]%Z, 2%R); ([1]%Z, (-1)%R); ([-1]%Z, (-1)%R)].
Definition cv_lt : option R -> option R -> bool := fun _ _ => false.
Lemma cv_matrix : exists m, stencil_matrix exact cv_lt ROW_MAJOR cv_box (real_offsets cv_offs) 1 false m.
Proof.
  eexists. eapply (@sm_coo _ exact cv_lt ROW_MAJOR cv_box (real_offsets cv_offs) 1 false 10
    [([-1]%Z, Some (-1)%R); ([0]%Z, Some 2%R); ([1]%Z, Some (-1)%R)]
    [fun k => (0 <=? k)%Z && (k <=? 1)%Z; fun k => (2 <=? k)%Z && (k <=? 3)%Z] _ 4 (fun _ => CRect 0 0)).
  split; [reflexivity|]. split; [split; [|split]|split; [split|]].
  - intros k Hk. unfold kernel_space in Hk. destruct (Z_le_dec k 1); [exists (fun k => (0 <=? k)%Z && (k <=? 1)%Z)|exists (fun k => (2 <=? k)%Z && (k <=? 3)%Z)];
      (split; [simpl; auto|lia]).
  - intros [|[|i]] [|[|j]] mi mj a Hi Hj Ha Hb; simpl in Hi, Hj; try reflexivity;
      try (destruct i; discriminate); try (destruct j; discriminate); injection Hi as <-; injection Hj as <-; lia.
  - intros m a [<-|[<-|[]]] Ha; unfold kernel_space; lia.
  - unfold real_offsets, cv_offs. cbn [map fst snd]. etransitivity; [|apply (Permutation_app_comm [_;_] [_])]. reflexivity.
  - repeat constructor.
  - eexists. split; [|apply interleave_concat]. constructor; [eexists; reflexivity|]. constructor; [eexists; reflexivity|constructor].
Qed.
Example C29_example : exists m,
  stencil_matrix exact cv_lt ROW_MAJOR cv_box (real_offsets cv_offs) (pv_space (v2 3 10)) false m /\
  lo cv_box <> [] /\ nonempty_box cv_box /\ offsets_dim cv_box cv_offs /\ symmetric_stencil cv_box cv_offs /\
  legion_ok lg2 /\ constructed lg2 (v2 3 10) /\
  grid_space false ROW_MAJOR cv_box (is_points lg2 (pv_space (v2 3 10))) /\ grid_space false ROW_MAJOR cv_box (is_points lg2 (pv_space (v2 3 11))) /\
  exists ln, derived_matvec exact lg2 m (v2 3 10) (v2 3 11) = Ok ln /\
    forall s s', launches_end [ln] s s' ->
      holds_grid false ROW_MAJOR cv_box s (v2 3 10) (fun _ => 100%R) ->
      holds_grid false ROW_MAJOR cv_box s (v2 3 11) (fun p => match p with [i] => IZR (i + 1) | _ => 0%R end) ->
      s' (at_point (v2 3 10) [0]%Z) = Some 100%R /\ s' (at_point (v2 3 10) [1]%Z) = Some 103%R.
Proof.
  destruct cv_matrix as [m Hm]. exists m.
  assert (Hn : nonempty_box cv_box) by (split; [reflexivity|intros [|i] Hi; simpl in *; lia]).
  assert (Hd : offsets_dim cv_box cv_offs) by (unfold offsets_dim, cv_offs; repeat constructor).
  assert (Hd' : offsets_dim cv_box (real_offsets cv_offs)) by (unfold offsets_dim, real_offsets, cv_offs; repeat constructor).
  assert (Hc : constructed lg2 (v2 3 10)) by (exists 3, 10, 0; reflexivity).
  assert (G : forall r, grid_space false ROW_MAJOR cv_box (is_points lg2 (pv_space (v2 3 r)))).
  { intros r q. cbn. split.
    - intros [<-|[<-|[]]]; (eexists; split; [|reflexivity]; apply contains_iff; reflexivity).
    - intros [p [Hp ->]]. destruct Hp as (H1 & _ & H2). cbn in H1. destruct p as [|x [|]]; try discriminate. specialize (H2 0 ltac:(simpl; lia)). cbn in H2.
      destruct (Z.eq_dec x 0) as [->|]; [tauto|]. assert (x = 1)%Z by lia. subst. tauto. }
  assert (L : lo cv_box <> []) by discriminate.
  split; [exact Hm|]. split; [exact L|]. split; [exact Hn|]. split; [exact Hd|]. split.
  { intros v Hv. destruct v as [|x [|]]; try discriminate. unfold coefficient, cv_offs. rewrite !Rsum_cons, !Rsum_nil. cbn [fst snd popp map].
    repeat match goal with |- context [point_eq_dec ?a ?b] => destruct (point_eq_dec a b) as [?E|?E] end;
      repeat match goal with E : [_] = [_] |- _ => injection E as E end; try lra; exfalso;
      repeat match goal with E : [?a] <> [?b] |- _ => assert (a <> b) by (intros C; apply E; f_equal; exact C); clear E end; lia. }
  split; [exact lg2_ok|]. split; [exact Hc|]. split; [apply G|]. split; [apply G|].
  destruct (C29_stencil_matvec_is_convolution (v2 3 11) L Hn Hd' lg2_ok Hc (G 10) (G 11) Hm) as [Acc _].
  destruct Acc as [ln Hln]; [left; discriminate|]. exists ln. split; [exact Hln|]. intros s s' He Hy Hx.
  assert (U := C29_stencil_matvec_real L Hn Hd lg2_ok Hc (G 10) (G 11) Hm Hln He Hx Hy).
  assert (P : forall x, (0 <= x <= 1)%Z -> in_box cv_box [x]) by (intros x Hx'; apply contains_iff; unfold contains; cbn; lia).
  split; [etransitivity; [exact (U [0]%Z (P 0%Z ltac:(lia)))|]|etransitivity; [exact (U [1]%Z (P 1%Z ltac:(lia)))|]]; f_equal; unfold convolve, cv_offs, zero_outside;
    rewrite !Rsum_cons, Rsum_nil; cbn -[IZR Rplus Rmult]; lra.
Qed.
