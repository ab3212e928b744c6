(** PropsStencil: properties C20 - C28 (grids, offsets and stencil matrices). *)
From Verif Require Import Base Index IndexSpec IndexFacts Outcome Sched PartitionSpec StencilSpec StencilSize StencilSizeFacts
  StencilFill StencilFillFacts StencilLaunch StencilSkip StencilTasks StencilCreate.
Set Implicit Arguments.
Local Open Scope Z_scope.

(** ** C20 *)
Theorem C20_stencil_size_exact : forall (E : Type) (b : rect) (offs : list (point * E)),
  lo b <> [] -> wf_box b -> offsets_dim b offs ->
  (exists F, forall fuel, (F <= fuel)%nat ->
     calculate_stencil_size fuel b offs = Ok (Z.of_nat (length (in_bounds_pairs b offs)))) /\
  (forall fuel, calculate_stencil_size fuel b offs = OutOfFuel \/
     calculate_stencil_size fuel b offs = Ok (Z.of_nat (length (in_bounds_pairs b offs)))).
Proof.
  intros E b offs H1 H2 H3. split.
  - destruct (extent_bound_exists (lo b) (hi b)) as [F HF]. exists F. intros fuel Hf.
    apply calculate_stencil_size_correct; auto.
  - intros fuel. pose proof (@calculate_stencil_size_any E fuel b offs H1 H2 H3) as G.
    destruct (calculate_stencil_size fuel b offs); [right; apply G; discriminate|right; apply G; discriminate|right; apply G; discriminate|left; reflexivity].
Qed.
Example C20_example : (* 5-point stencil on a 3 x 4 grid: 5*12 - 2*3 - 2*4 entries *)
  calculate_stencil_size 10 (mk_rect [0; 0] [2; 3]) [([0;0],4); ([0;-1],-1); ([0;1],-1); ([-1;0],-1); ([1;0],-1)] = Ok 46.
Proof. reflexivity. Qed.

(** ** C21 *)
Theorem C21_traversal_visits_each_point_once : forall (o : IndexOrder) (b : rect),
  nonempty_box b ->
  exists visited, (exists F, forall fuel, (F <= fuel)%nat -> traverse fuel (increment o b) (lo b) = Some (visited, lo b)) /\
    NoDup visited /\ (forall p, In p visited <-> in_box b p) /\ StronglySorted (order_lt o) visited.
Proof.
  intros o b Hn. pose proof (nonempty_wf _ Hn) as Hwf. exists (box_points o b).
  split; [|split; [apply NoDup_box_points|split]].
  - exists (length (box_points o b)). intros fuel Hf. rewrite traverse_box; rewrite ?clamp_id by exact Hn; auto.
  - intros p. apply in_box_points. exact Hwf.
  - pose proof (box_points_sorted o b) as H.
    assert (G : forall l, (forall p, In p l -> in_box b p) -> StronglySorted (fun p q => compare o p q = true) l -> StronglySorted (order_lt o) l).
    { intros l Hin Hs. induction Hs as [|a l Hs IH Ha]; constructor.
      - apply IH. intros p Hp. apply Hin. right; exact Hp.
      - rewrite Forall_forall in *. intros q Hq. apply compare_order_lt; [|apply Ha; exact Hq].
        destruct (Hin a (or_introl eq_refl)) as [-> _]. destruct (Hin q (or_intror Hq)) as [-> _]. reflexivity. }
    apply G; [|exact H]. intros p. apply in_box_points. exact Hwf.
Qed.
Example C21_example : nonempty_box (mk_rect [0; 5] [1; 6]) /\
  traverse 9 (increment COLUMN_MAJOR (mk_rect [0; 5] [1; 6])) [0; 5] = Some ([[0;5];[1;5];[0;6];[1;6]], [0;5]).
Proof. split; [split; [reflexivity|intros [|[|i]] Hi; simpl in *; lia]|reflexivity]. Qed.

(** ** C22 *)
Theorem C22_linearisation_order_preserving_bijection : forall (o : IndexOrder) (b : rect),
  nonempty_box b ->
  (forall p, in_box b p -> 0 <= linearize o b p < volume b) /\
  (forall k, 0 <= k < volume b -> exists p, in_box b p /\ linearize o b p = k) /\
  (forall p q, in_box b p -> in_box b q -> (linearize o b p = linearize o b q <-> p = q)) /\
  (forall p q, in_box b p -> in_box b q -> (linearize o b p < linearize o b q <-> order_lt o p q)) /\
  (forall fuel visited last i p, traverse fuel (increment o b) (lo b) = Some (visited, last) ->
     nth_error visited i = Some p -> linearize o b p = Z.of_nat i).
Proof.
  intros o b Hn. pose proof (nonempty_wf _ Hn) as Hwf. split; [|split; [|split; [|split]]].
  - intros p. apply linearize_range.
  - intros k. apply linearize_surj. exact Hn.
  - intros p q Hp Hq. split; [apply linearize_inj; assumption|intros ->; reflexivity].
  - intros p q Hp Hq. rewrite <- linearize_mono by assumption. apply compare_order_lt.
    destruct Hp as [-> _], Hq as [-> _]. reflexivity.
  - intros fuel visited last i p Ht Hi.
    assert (G : forall f f' inc p0 r, traverse f inc p0 = Some r -> (f <= f')%nat -> traverse f' inc p0 = Some r).
    { clear. induction f as [|f IH]; intros [|f'] inc p0 r H Hf; try discriminate; try lia. simpl in *.
      destruct (inc p0) as [q m]. destruct m; [|exact H]. destruct (traverse f inc q) as [[v l]|] eqn:Q; [|discriminate].
      rewrite (IH f' inc q (v, l) Q) by lia. exact H. }
    apply (G _ (Nat.max fuel (length (box_points o (clamp b))))) in Ht; [|lia].
    rewrite traverse_box in Ht by (try exact Hwf; lia). rewrite clamp_id in Ht by exact Hn. injection Ht as <- <-.
    rewrite <- (nth_error_nth _ _ [] Hi). apply nth_linearize; [exact Hn|]. apply nth_error_Some. congruence.
Qed.
Example C22_example : linearize ROW_MAJOR (mk_rect [1;2;3] [4;6;8]) [2;3;4] = 37 /\
  linearize COLUMN_MAJOR (mk_rect [1;2;3] [4;6;8]) [2;3;4] = 25 /\ volume (mk_rect [1;2;3] [4;6;8]) = 120.
Proof. repeat split. Qed.

(** ** C23 *)
Theorem C23_offset_comparison_strict_total_order : forall (o : IndexOrder),
  (forall p, compare o p p = false) /\
  (forall p q r, length p = length q -> length q = length r ->
     compare o p q = true -> compare o q r = true -> compare o p r = true) /\
  (forall p q, length p = length q -> (compare o p q = true \/ p = q \/ compare o q p = true)) /\
  (forall p q, length p = length q -> (compare o p q = true <-> order_lt o p q)).
Proof.
  intros o. split; [apply compare_irrefl|]. split; [apply compare_trans|]. split.
  - intros p q H. destruct (compare o p q) eqn:A; [left; reflexivity|]. destruct (compare o q p) eqn:B; [right; right; reflexivity|].
    right; left. apply (compare_total o); assumption.
  - intros p q H. apply compare_order_lt. exact H.
Qed.

(** a strict weak order: irreflexive, transitive, and incomparability is transitive *)
Definition strict_weak_order {A} (P : A -> Prop) (lt : A -> A -> bool) : Prop :=
  (forall x, P x -> lt x x = false) /\
  (forall x y z, P x -> P y -> P z -> lt x y = true -> lt y z = true -> lt x z = true) /\
  (forall x y z, P x -> P y -> P z -> lt x y = false -> lt y x = false -> lt y z = false -> lt z y = false ->
     lt x z = false /\ lt z x = false).

Theorem C23_sort_comparator_strict_weak_order : forall (E : Type) (ltE : E -> E -> bool) (o : IndexOrder) (d : nat),
  strict_weak_order (fun _ => True) ltE ->
  strict_weak_order (fun oe : point * E => length (fst oe) = d) (offset_less ltE o).
Proof.
  intros E ltE o d (I & T & C). split; [|split].
  - intros [p e] _. unfold offset_less. cbn [fst snd]. rewrite compare_irrefl. apply I. exact Logic.I.
  - intros [p e] [q f] [r g] Hp Hq Hr. unfold offset_less. cbn [fst snd] in *. assert (Hpq : length p = length q) by congruence.
    assert (Hqr : length q = length r) by congruence.
    destruct (compare o p q) eqn:A.
    + intros _. destruct (compare o q r) eqn:B.
      * intros _. rewrite (compare_trans o p q r Hpq Hqr A B). reflexivity.
      * destruct (compare o r q) eqn:B'; [discriminate|]. intros _. rewrite <- (compare_total o q r Hqr B B'). rewrite A. reflexivity.
    + destruct (compare o q p) eqn:A'; [discriminate|]. rewrite (compare_total o p q Hpq A A'). intros H1.
      destruct (compare o q r) eqn:B; [reflexivity|]. destruct (compare o r q) eqn:B'; [discriminate|]. intros H2.
      eapply T; eauto; exact Logic.I.
  - intros [p e] [q f] [r g] Hp Hq Hr. unfold offset_less. cbn [fst snd] in *. assert (Hpq : length p = length q) by congruence.
    assert (Hqr : length q = length r) by congruence.
    destruct (compare o p q) eqn:A; [discriminate|]. destruct (compare o q p) eqn:A'; [discriminate|].
    rewrite (compare_total o p q Hpq A A'). intros H1 H2.
    destruct (compare o q r) eqn:B; [discriminate|]. destruct (compare o r q) eqn:B'; [discriminate|]. intros H3 H4.
    eapply (C e f g); eauto; exact Logic.I.
Qed.
Example C23_example : strict_weak_order (fun _ => True) Z.ltb.
Proof. repeat split; intros; lia. Qed.

(** ** C24, C25: COO contents *)
(** Memory [m] holds the triples [contents] at positions 0, 1, 2, ...; coordinates stored through [enc]. *)
Definition holds_coo {E} (enc : point -> point) (m : loc -> cell E) (contents : list (point * point * E)) : Prop :=
  forall k r c e, nth_error contents k = Some (r, c, e) ->
    m (LRow (Z.of_nat k)) = CPoint (enc r) /\ m (LCol (Z.of_nat k)) = CPoint (enc c) /\ m (LEntry (Z.of_nat k)) = CEntry e.

(** how coordinates are stored: as they are, or linearised *)
Definition stored (linear : bool) (o : IndexOrder) (b : rect) (p : point) : point :=
  if linear then [linearize o b p] else p.

Lemma create_coo_like E (ltE : E -> E -> bool) linear fuel o b offs sorted pieces tr size :
  lo b <> [] -> wf_box b -> offsets_dim b offs ->
  create_coo_stencil ltE linear fuel o b offs sorted pieces tr size ->
  size = Z.of_nat (length (stencil_contents o b sorted)) /\ Permutation offs sorted /\
  exists ts, Forall2 (fun m t => coo_writes_like o b (stored linear o b) m sorted t) pieces ts /\ interleave ts tr.
Proof.
  intros H1 H2 H3 (Hs & _ & [Hp _] & [ts [Hts Hil]]). split; [|split; [exact Hp|]].
  - rewrite (@calculate_stencil_size_any E fuel b offs H1 H2 H3) in Hs by congruence. injection Hs as <-.
    rewrite (@stencil_contents_length E o b offs sorted H2 Hp). reflexivity.
  - exists ts. split; [|exact Hil]. clear Hil. induction Hts as [|m t ms ts [k Hk] Hts IH]; constructor; [|exact IH].
    destruct linear; eapply coo_gen_like; eauto.
Qed.

(** the triples a creator leaves in memory, in storage order *)
Lemma coo_stencil_memory E (ltE : E -> E -> bool) linear fuel o b (offs sorted : list (point * E)) pieces tr size (s : loc -> cell E) :
  lo b <> [] -> wf_box b -> offsets_dim b offs ->
  create_coo_stencil ltE linear fuel o b offs sorted pieces tr size ->
  size = Z.of_nat (length (stencil_contents o b sorted)) /\ std_sort ltE o offs sorted /\
  holds_coo (stored linear o b) (run loc_eq_dec tr s) (stencil_contents o b sorted).
Proof.
  intros H1 H2 H3 Hc.
  destruct (create_coo_like H1 H2 H3 Hc) as (Hsz & Hp & ts & Hts & Hil).
  destruct Hc as (_ & (Hcomp & Hdis & _) & Hsort & _).
  split; [exact Hsz|]. split; [exact Hsort|].
  intros k r c e Hk. pose proof (proj1 (nth_contents _ _ _ _ _ _ _) Hk) as Hk'.
  assert (Hlt : (k < length (stencil_contents o b sorted))%nat) by (apply nth_error_Some; congruence).
  destruct (Hcomp (Z.of_nat k)) as [m [Hm Hmk]]; [unfold kernel_space; lia|].
  eapply coo_launch_position; eassumption.
Qed.
Theorem C24_coo_stencil_contents : forall (E : Type) (ltE : E -> E -> bool) linear fuel o b
    (offs sorted : list (point * E)) pieces tr size (s : loc -> cell E),
  lo b <> [] -> wf_box b -> offsets_dim b offs ->
  create_coo_stencil ltE linear fuel o b offs sorted pieces tr size ->
  exists contents,
    size = Z.of_nat (length contents) /\
    Permutation contents (map triple_of (in_bounds_pairs b offs)) /\
    StronglySorted (triple_before ltE o) contents /\
    holds_coo (stored linear o b) (run loc_eq_dec tr s) contents.
Proof.
  intros E ltE linear fuel o b offs sorted pieces tr size s H1 H2 H3 Hc.
  destruct (coo_stencil_memory s H1 H2 H3 Hc) as (Hsz & Hsort & Hm).
  exists (stencil_contents o b sorted). split; [exact Hsz|]. split; [apply stencil_contents_perm; [exact H2|apply Hsort]|].
  split; [exact (@stencil_contents_sorted E ltE o b offs sorted H2 H3 Hsort)|exact Hm].
Qed.

(** C24, completion: the fill tasks always finish, so such executions exist for every partition. *)
Theorem C24_coo_fill_completes : forall (E : Type) (linear : bool) o b (sorted : list (point * E)),
  wf_box b -> exists F, forall fuel mdom, (F <= fuel)%nat -> exists r,
    (if linear then fill_linearized_coo_task fuel o b mdom sorted else fill_coo_task fuel o b mdom sorted) = Ok r.
Proof.
  intros E linear o b sorted H. destruct (fill_coo_terminates E o b (stored linear o b) sorted H) as [F HF].
  exists F. intros fuel mdom Hf. destruct (HF fuel mdom Hf) as [r Hr]. exists r. destruct linear; exact Hr.
Qed.

Theorem C25_coo_contents_piece_independent : forall (E : Type) (ltE : E -> E -> bool) linear fuel1 fuel2 o b
    (offs sorted : list (point * E)) pieces1 pieces2 tr1 tr2 size1 size2 (s : loc -> cell E),
  lo b <> [] -> wf_box b -> offsets_dim b offs ->
  create_coo_stencil ltE linear fuel1 o b offs sorted pieces1 tr1 size1 ->
  create_coo_stencil ltE linear fuel2 o b offs sorted pieces2 tr2 size2 ->
  size1 = size2 /\ forall l, run loc_eq_dec tr1 s l = run loc_eq_dec tr2 s l.
Proof.
  intros E ltE linear fuel1 fuel2 o b offs sorted pieces1 pieces2 tr1 tr2 size1 size2 s H1 H2 H3 Hc1 Hc2.
  destruct (create_coo_like H1 H2 H3 Hc1) as (Hsz1 & _ & ts1 & Hts1 & Hil1).
  destruct (create_coo_like H1 H2 H3 Hc2) as (Hsz2 & _ & ts2 & Hts2 & Hil2).
  split; [congruence|]. destruct Hc1 as (_ & (Hcomp1 & Hdis1 & _) & _). destruct Hc2 as (_ & (Hcomp2 & Hdis2 & _) & _).
  assert (Len : length (entries o b sorted) = length (stencil_contents o b sorted)) by (rewrite <- entries_contents, map_length; reflexivity).
  assert (G : forall l k, coo_loc_index l = Some k -> 0 <= k < Z.of_nat (length (entries o b sorted)) ->
     run loc_eq_dec tr1 s l = run loc_eq_dec tr2 s l).
  { intros l k Hl Hk. destruct (nth_error (entries o b sorted) (Z.to_nat k)) as [[p [c e]]|] eqn:Q.
    2: { apply nth_error_None in Q. lia. }
    destruct (Hcomp1 k) as [m1 [Hm1 Hk1]]; [unfold kernel_space; lia|]. destruct (Hcomp2 k) as [m2 [Hm2 Hk2]]; [unfold kernel_space; lia|].
    assert (Ek : k = Z.of_nat (Z.to_nat k)) by lia.
    rewrite Ek in Hk1, Hk2.
    destruct (@coo_launch_position E o b (stored linear o b) sorted pieces1 ts1 tr1 s Hts1 Hdis1 Hil1 (Z.to_nat k) p c e m1 Q Hm1 Hk1) as (A1 & A2 & A3).
    destruct (@coo_launch_position E o b (stored linear o b) sorted pieces2 ts2 tr2 s Hts2 Hdis2 Hil2 (Z.to_nat k) p c e m2 Q Hm2 Hk2) as (B1 & B2 & B3).
    rewrite <- Ek in *. destruct l; simpl in Hl; try discriminate; injection Hl as ->; congruence. }
  intros l. destruct (coo_loc_index l) as [k|] eqn:Q.
  - destruct (Z_le_dec 0 k) as [L1|L1]; [destruct (Z_lt_dec k (Z.of_nat (length (entries o b sorted)))) as [L2|L2]|].
    + apply (G l k Q). lia.
    + rewrite (@coo_launch_frame E o b (stored linear o b) sorted pieces1 ts1 tr1 s Hts1 Hil1 l) by (intros k' Hk'; rewrite Q in Hk'; injection Hk' as <-; lia).
      rewrite (@coo_launch_frame E o b (stored linear o b) sorted pieces2 ts2 tr2 s Hts2 Hil2 l) by (intros k' Hk'; rewrite Q in Hk'; injection Hk' as <-; lia). reflexivity.
    + rewrite (@coo_launch_frame E o b (stored linear o b) sorted pieces1 ts1 tr1 s Hts1 Hil1 l) by (intros k' Hk'; rewrite Q in Hk'; injection Hk' as <-; lia).
      rewrite (@coo_launch_frame E o b (stored linear o b) sorted pieces2 ts2 tr2 s Hts2 Hil2 l) by (intros k' Hk'; rewrite Q in Hk'; injection Hk' as <-; lia). reflexivity.
  - rewrite (@coo_launch_frame E o b (stored linear o b) sorted pieces1 ts1 tr1 s Hts1 Hil1 l) by (intros k' Hk'; congruence).
    rewrite (@coo_launch_frame E o b (stored linear o b) sorted pieces2 ts2 tr2 s Hts2 Hil2 l) by (intros k' Hk'; congruence). reflexivity.
Qed.

(** C25: no piece writes outside its own domain. *)
Definition loc_in_piece (m : Z -> bool) (l : loc) : Prop :=
  match l with LRow k | LCol k | LEntry k => m k = true | LRowptr _ => False end.
Theorem C25_coo_task_writes_own_piece_only : forall (E : Type) (linear : bool) fuel o b (sorted : list (point * E)) m t k,
  wf_box b ->
  (if linear then fill_linearized_coo_task fuel o b m sorted else fill_coo_task fuel o b m sorted) = Ok (t, k) ->
  forall l, writes t l -> loc_in_piece m l.
Proof.
  intros E linear fuel o b sorted m t k Hb H l Hw.
  assert (L : coo_writes_like o b (stored linear o b) m sorted t) by (destruct linear; eapply coo_gen_like; eauto).
  destruct (coo_writes_own L Hw) as [n (N1 & _ & N2)]. destruct l; simpl in *; try discriminate; injection N1 as ->; exact N2.
Qed.

(** ** C26: CSR contents and row pointers *)
Definition holds_csr {E} (enc : point -> point) (m : loc -> cell E) (contents : list (point * point * E)) (rows : list point)
           (first last : nat -> Z) : Prop :=
  (forall k r c e, nth_error contents k = Some (r, c, e) ->
     m (LCol (Z.of_nat k)) = CPoint (enc c) /\ m (LEntry (Z.of_nat k)) = CEntry e) /\
  (forall i p, nth_error rows i = Some p -> m (LRowptr (enc p)) = CRect (first i) (last i)).

(** the intervals first..last of rows 0 .. n-1 are contiguous, in order, disjoint and cover 0 .. size-1 *)
Definition contiguous_intervals (n : nat) (size : Z) (first last : nat -> Z) : Prop :=
  first 0%nat = 0 /\ (forall i, (i < n)%nat -> first i - 1 <= last i /\ first (S i) = last i + 1) /\ first n = size.

Lemma row_intervals_contiguous E o b (sorted : list (point * E)) :
  contiguous_intervals (length (box_points o b)) (Z.of_nat (length (stencil_contents o b sorted)))
    (row_first o b sorted) (row_last o b sorted).
Proof.
  split; [reflexivity|]. split; [|apply row_first_all].
  intros i Hi. destruct (nth_error (box_points o b) i) as [p|] eqn:Q; [|apply nth_error_None in Q; lia].
  unfold row_last. rewrite (row_first_S o b sorted i Q). lia.
Qed.

Lemma csr_stencil_memory E (ltE : E -> E -> bool) fuel o b (offs sorted : list (point * E)) pieces tr size (s : loc -> cell E) :
  lo b <> [] -> wf_box b -> offsets_dim b offs ->
  create_csr_stencil ltE fuel o b offs sorted pieces tr size ->
  size = Z.of_nat (length (stencil_contents o b sorted)) /\ std_sort ltE o offs sorted /\
  holds_csr (fun p => p) (run loc_eq_dec tr s) (stencil_contents o b sorted) (box_points o b) (row_first o b sorted) (row_last o b sorted).
Proof.
  intros H1 H2 H3 (Hs & (Hc1 & Hd1 & Hw1) & (Hc2 & Hd2 & Hw2) & Hsort & ts & Hts & Hil).
  destruct Hsort as [Hp Hss]. pose proof (conj Hp Hss : std_sort ltE o offs sorted) as Hsort.
  rewrite (@calculate_stencil_size_any E fuel b offs H1 H2 H3) in Hs by congruence. injection Hs as <-.
  rewrite <- (@stencil_contents_length E o b offs sorted H2 Hp) in *.
  assert (Hts' : Forall2 (fun m t => csr_writes_like o b (fun p => p) (fst m) (snd m) sorted t) pieces ts).
  { clear Hil. assert (Hor : nonempty_box b \/ Forall (fun m : (Z -> bool) * (point -> bool) => forall p, snd m p = false) pieces).
    { destruct (nonempty_box_dec b) as [Hn|Hn]; [left; exact Hn|right]. apply Forall_forall. intros m Hm p.
      destruct (snd m p) eqn:Q; [|reflexivity]. exfalso. apply Hn.
      assert (C : contains b p = true) by (eapply Hw2; [apply in_map; exact Hm|exact Q]). apply contains_iff in C. eapply in_box_nonempty; exact C. }
    clear -Hts Hor H2. induction Hts as [|m t ms ts [k Hk] Hts IH]; constructor.
    - eapply csr_gen_like; [exact H2| |exact Hk]. destruct Hor as [Hn|Hf]; [left; exact Hn|right]. inversion Hf; subst; assumption.
    - apply IH. destruct Hor as [Hn|Hf]; [left; exact Hn|right]. inversion Hf; subst; assumption. }
  split; [reflexivity|]. split; [exact Hsort|].
  split.
  - intros k r c e Hk. pose proof (proj1 (nth_contents _ _ _ _ _ _ _) Hk) as Hk'.
    assert (Hlt : (k < length (stencil_contents o b sorted))%nat) by (apply nth_error_Some; congruence).
    destruct (Hc1 (Z.of_nat k)) as [m [Hm Hmk]]; [unfold kernel_space; lia|].
    eapply (@csr_launch_position E o b (fun p => p) sorted pieces ts tr s); eauto.
  - intros i p Hi. assert (Hin : in_box b p) by (apply (in_box_points o b p H2); eapply nth_error_In; exact Hi).
    destruct (Hc2 p) as [m [Hm Hmp]]; [apply contains_iff; exact Hin|].
    eapply (@csr_launch_rowptr E o b (fun p => p) sorted pieces ts tr s); eauto.
Qed.
Theorem C26_csr_stencil_contents : forall (E : Type) (ltE : E -> E -> bool) fuel o b
    (offs sorted : list (point * E)) pieces tr size (s : loc -> cell E),
  lo b <> [] -> wf_box b -> offsets_dim b offs ->
  create_csr_stencil ltE fuel o b offs sorted pieces tr size ->
  exists contents rows first last,
    size = Z.of_nat (length contents) /\
    Permutation contents (map triple_of (in_bounds_pairs b offs)) /\
    StronglySorted (triple_before ltE o) contents /\
    NoDup rows /\ (forall p, In p rows <-> in_box b p) /\
    contiguous_intervals (length rows) size first last /\
    (forall i p k t, nth_error rows i = Some p -> nth_error contents k = Some t ->
       (first i <= Z.of_nat k <= last i <-> fst (fst t) = p)) /\
    holds_csr (fun p => p) (run loc_eq_dec tr s) contents rows first last.
Proof.
  intros E ltE fuel o b offs sorted pieces tr size s H1 H2 H3 Hc.
  destruct (csr_stencil_memory s H1 H2 H3 Hc) as (-> & Hsort & Hm).
  exists (stencil_contents o b sorted), (box_points o b), (row_first o b sorted), (row_last o b sorted).
  split; [reflexivity|]. split; [apply stencil_contents_perm; [exact H2|apply Hsort]|]. split; [exact (@stencil_contents_sorted E ltE o b offs sorted H2 H3 Hsort)|].
  split; [apply NoDup_box_points|]. split; [intros p; apply in_box_points; exact H2|]. split; [apply row_intervals_contiguous|].
  split; [intros i p k t Hi Hk; apply row_interval; assumption|exact Hm].
Qed.

(** the linearised variant: coordinates are linear indices *)
Lemma linearized_csr_stencil_memory E (ltE : E -> E -> bool) fuel o b (offs sorted : list (point * E)) pieces tr size (s : loc -> cell E) :
  lo b <> [] -> nonempty_box b -> offsets_dim b offs ->
  create_linearized_csr_stencil ltE fuel o b offs sorted pieces tr size ->
  size = Z.of_nat (length (stencil_contents o b sorted)) /\ std_sort ltE o offs sorted /\
  holds_csr (fun p => [linearize o b p]) (run loc_eq_dec tr s) (stencil_contents o b sorted) (box_points o b) (row_first o b sorted) (row_last o b sorted).
Proof.
  intros H1 Hn H3 (Hs & (Hc1 & Hd1 & Hw1) & (Hc2 & Hd2 & Hw2) & Hdom & Hsort & ts & Hts & Hil).
  pose proof (nonempty_wf _ Hn) as H2.
  destruct Hsort as [Hp Hss]. pose proof (conj Hp Hss : std_sort ltE o offs sorted) as Hsort.
  rewrite (@calculate_stencil_size_any E fuel b offs H1 H2 H3) in Hs by congruence. injection Hs as <-.
  rewrite <- (@stencil_contents_length E o b offs sorted H2 Hp) in *.
  assert (Hds : offsets_dim b sorted) by (unfold offsets_dim; eapply Permutation_Forall; [exact Hp|exact H3]).
  set (enc := fun p => [linearize o b p]).
  set (pieces' := map (fun m : dom1 * dom1 => (dmem (fst m), fun p : point => dmem (snd m) (hd 0 p))) pieces).
  assert (E1 : map fst pieces' = map (fun m => dmem (fst m)) pieces) by (unfold pieces'; rewrite map_map; reflexivity).
  assert (Hts' : Forall2 (fun m t => csr_writes_like o b enc (fst m) (snd m) sorted t) pieces' ts).
  { unfold pieces'. clear -Hts Hdom H1 Hn Hds. induction Hts as [|m t ms ts Hk Hts IH]; constructor.
    - inversion Hdom as [|? ? [D1 [D2 D3]] Hdom']; subst. cbn [fst snd]. eapply lin_csr_like; eauto.
    - apply IH. inversion Hdom; assumption. }
  assert (Hd1' : disjoint_pieces (map fst pieces')) by (rewrite E1; exact Hd1).
  assert (Hd2' : disjoint_pieces (map snd pieces')).
  { unfold pieces'. rewrite map_map. cbn [snd]. intros i j mi mj a Hi Hj Ha Hb.
    rewrite nth_error_map_some in Hi, Hj.
    destruct (nth_error pieces i) as [di|] eqn:Qi; [|discriminate]. destruct (nth_error pieces j) as [dj|] eqn:Qj; [|discriminate].
    injection Hi as <-. injection Hj as <-. apply (Hd2 i j (dmem (snd di)) (dmem (snd dj)) (hd 0 a)); try assumption;
      rewrite nth_error_map_some; [rewrite Qi|rewrite Qj]; reflexivity. }
  assert (Henc : forall p q, in_box b p -> in_box b q -> enc p = enc q -> p = q).
  { intros p q Hpb Hqb H. injection H as H. eapply linearize_inj; eassumption. }
  split; [reflexivity|]. split; [exact Hsort|].
  split.
  - intros k r c e Hk. pose proof (proj1 (nth_contents _ _ _ _ _ _ _) Hk) as Hk'.
    assert (Hlt : (k < length (stencil_contents o b sorted))%nat) by (apply nth_error_Some; congruence).
    destruct (Hc1 (Z.of_nat k)) as [m [Hm Hmk]]; [unfold kernel_space; lia|].
    eapply (@csr_launch_position E o b enc sorted pieces' ts tr s); eauto. rewrite E1. exact Hm.
  - intros i p Hi. assert (Hin : in_box b p) by (apply (in_box_points o b p H2); eapply nth_error_In; exact Hi).
    destruct (Hc2 (linearize o b p)) as [m [Hm Hmp]]; [pose proof (linearize_range o b p Hin); lia|].
    apply in_map_iff in Hm. destruct Hm as [dm [<- Hdm]].
    eapply (@csr_launch_rowptr E o b enc sorted pieces' ts tr s Henc H2 Hts' Hd1' Hd2' Hil i p); eauto.
    + unfold pieces'. rewrite map_map. cbn [snd]. apply in_map_iff. exists dm. split; [reflexivity|exact Hdm].
    + exact Hmp.
Qed.
Theorem C26_linearized_csr_stencil_contents : forall (E : Type) (ltE : E -> E -> bool) fuel o b
    (offs sorted : list (point * E)) pieces tr size (s : loc -> cell E),
  lo b <> [] -> nonempty_box b -> offsets_dim b offs ->
  create_linearized_csr_stencil ltE fuel o b offs sorted pieces tr size ->
  exists contents rows first last,
    size = Z.of_nat (length contents) /\
    Permutation contents (map triple_of (in_bounds_pairs b offs)) /\
    StronglySorted (triple_before ltE o) contents /\
    NoDup rows /\ (forall p, In p rows <-> in_box b p) /\
    contiguous_intervals (length rows) size first last /\
    (forall i p k t, nth_error rows i = Some p -> nth_error contents k = Some t ->
       (first i <= Z.of_nat k <= last i <-> fst (fst t) = p)) /\
    holds_csr (fun p => [linearize o b p]) (run loc_eq_dec tr s) contents rows first last.
Proof.
  intros E ltE fuel o b offs sorted pieces tr size s H1 Hn H3 Hc.
  pose proof (nonempty_wf _ Hn) as H2.
  destruct (linearized_csr_stencil_memory s H1 Hn H3 Hc) as (-> & Hsort & Hm).
  exists (stencil_contents o b sorted), (box_points o b), (row_first o b sorted), (row_last o b sorted).
  split; [reflexivity|]. split; [apply stencil_contents_perm; [exact H2|apply Hsort]|]. split; [exact (@stencil_contents_sorted E ltE o b offs sorted H2 H3 Hsort)|].
  split; [apply NoDup_box_points|]. split; [intros p; apply in_box_points; exact H2|]. split; [apply row_intervals_contiguous|].
  split; [intros i p k t Hi Hk; apply row_interval; assumption|exact Hm].
Qed.

(** C25 for CSR: no piece writes outside its own kernel or row-pointer domain *)
Theorem C25_csr_task_writes_own_piece_only : forall (E : Type) fuel o b (sorted : list (point * E)) mdom rdom t k,
  wf_box b -> (nonempty_box b \/ forall p, rdom p = false) ->
  fill_csr_task fuel o b mdom rdom sorted = Ok (t, k) ->
  forall l, writes t l ->
    match l with LRow _ => False | LCol k | LEntry k => mdom k = true | LRowptr p => rdom p = true end.
Proof.
  intros E fuel o b sorted mdom rdom t k Hb Hor H l Hw.
  assert (L : csr_writes_like o b (fun p => p) mdom rdom sorted t) by (eapply csr_gen_like; eauto).
  pose proof (@csr_writes_own E o b (fun p => p) sorted Hb (mdom, rdom) t l L Hw) as O.
  destruct l; simpl in O; try tauto.
Qed.

Lemma csr_same_entries E o b (sorted : list (point * E)) enc pieces1 pieces2 ts1 ts2 tr1 tr2 (s : loc -> cell E) :
  wf_box b -> (forall p q, in_box b p -> in_box b q -> enc p = enc q -> p = q) ->
  Forall2 (fun m t => csr_writes_like o b enc (fst m) (snd m) sorted t) pieces1 ts1 -> interleave ts1 tr1 ->
  Forall2 (fun m t => csr_writes_like o b enc (fst m) (snd m) sorted t) pieces2 ts2 -> interleave ts2 tr2 ->
  disjoint_pieces (map fst pieces1) -> disjoint_pieces (map snd pieces1) ->
  disjoint_pieces (map fst pieces2) -> disjoint_pieces (map snd pieces2) ->
  complete_partition (kernel_space (Z.of_nat (length (entries o b sorted)))) (map fst pieces1) ->
  complete_partition (kernel_space (Z.of_nat (length (entries o b sorted)))) (map fst pieces2) ->
  complete_partition (fun q => exists p, in_box b p /\ q = enc p) (map snd pieces1) ->
  complete_partition (fun q => exists p, in_box b p /\ q = enc p) (map snd pieces2) ->
  forall l, run loc_eq_dec tr1 s l = run loc_eq_dec tr2 s l.
Proof.
  intros Hb Henc T1 I1 T2 I2 D1 D1' D2 D2' C1 C2 C1' C2' l.
  assert (Fr : (forall m, ~ csr_owns o b enc sorted m l) -> run loc_eq_dec tr1 s l = run loc_eq_dec tr2 s l).
  { intros H. rewrite (@csr_launch_frame E o b enc sorted pieces1 ts1 tr1 s Hb T1 I1 l) by (intros m _; apply H).
    rewrite (@csr_launch_frame E o b enc sorted pieces2 ts2 tr2 s Hb T2 I2 l) by (intros m _; apply H). reflexivity. }
  assert (Ent : forall k, 0 <= k < Z.of_nat (length (entries o b sorted)) ->
     run loc_eq_dec tr1 s (LCol k) = run loc_eq_dec tr2 s (LCol k) /\ run loc_eq_dec tr1 s (LEntry k) = run loc_eq_dec tr2 s (LEntry k)).
  { intros k Hk. destruct (nth_error (entries o b sorted) (Z.to_nat k)) as [[p [c e]]|] eqn:Q.
    2: { apply nth_error_None in Q. lia. }
    destruct (C1 k) as [m1 [Hm1 Hk1]]; [unfold kernel_space; lia|]. destruct (C2 k) as [m2 [Hm2 Hk2]]; [unfold kernel_space; lia|].
    assert (Ek : k = Z.of_nat (Z.to_nat k)) by lia. rewrite Ek in Hk1, Hk2.
    destruct (@csr_launch_position E o b enc sorted pieces1 ts1 tr1 s Hb T1 D1 D1' I1 _ _ _ _ _ Q Hm1 Hk1) as (A2 & A3).
    destruct (@csr_launch_position E o b enc sorted pieces2 ts2 tr2 s Hb T2 D2 D2' I2 _ _ _ _ _ Q Hm2 Hk2) as (B2 & B3).
    rewrite <- Ek in *. split; congruence. }
  destruct l as [k|k|k|q].
  - apply Fr. intros m H. exact H.
  - destruct (Z_le_dec 0 k) as [L1|L1]; [destruct (Z_lt_dec k (Z.of_nat (length (entries o b sorted)))) as [L2|L2]|].
    + apply Ent. lia. + apply Fr. intros m [_ H]. lia. + apply Fr. intros m [_ H]. lia.
  - destruct (Z_le_dec 0 k) as [L1|L1]; [destruct (Z_lt_dec k (Z.of_nat (length (entries o b sorted)))) as [L2|L2]|].
    + apply Ent. lia. + apply Fr. intros m [_ H]. lia. + apply Fr. intros m [_ H]. lia.
  - destruct (in_dec (list_eq_dec Z.eq_dec) q (map enc (box_points o b))) as [Hin|Hin].
    + apply in_map_iff in Hin. destruct Hin as [p [<- Hin]]. pose proof Hin as Hi. apply In_nth_error in Hi. destruct Hi as [i Hi].
      apply (in_box_points o b p Hb) in Hin.
      destruct (C1' (enc p)) as [m1 [Hm1 Hk1]]; [exists p; auto|]. destruct (C2' (enc p)) as [m2 [Hm2 Hk2]]; [exists p; auto|].
      rewrite (@csr_launch_rowptr E o b enc sorted pieces1 ts1 tr1 s Henc Hb T1 D1 D1' I1 i p m1 Hi Hm1 Hk1).
      rewrite (@csr_launch_rowptr E o b enc sorted pieces2 ts2 tr2 s Henc Hb T2 D2 D2' I2 i p m2 Hi Hm2 Hk2). reflexivity.
    + apply Fr. intros m [_ [p [Hp ->]]]. apply Hin. apply in_map. apply (in_box_points o b p Hb). exact Hp.
Qed.

Theorem C25_csr_contents_piece_independent : forall (E : Type) (ltE : E -> E -> bool) fuel1 fuel2 o b
    (offs sorted : list (point * E)) pieces1 pieces2 tr1 tr2 size1 size2 (s : loc -> cell E),
  lo b <> [] -> wf_box b -> offsets_dim b offs ->
  create_csr_stencil ltE fuel1 o b offs sorted pieces1 tr1 size1 ->
  create_csr_stencil ltE fuel2 o b offs sorted pieces2 tr2 size2 ->
  size1 = size2 /\ forall l, run loc_eq_dec tr1 s l = run loc_eq_dec tr2 s l.
Proof.
  intros E ltE fuel1 fuel2 o b offs sorted pieces1 pieces2 tr1 tr2 size1 size2 s H1 H2 H3
    (Hs1 & (C1 & D1 & W1) & (C1' & D1' & W1') & [Hp1 _] & ts1 & T1 & I1) (Hs2 & (C2 & D2 & W2) & (C2' & D2' & W2') & [Hp2 _] & ts2 & T2 & I2).
  rewrite (@calculate_stencil_size_any E fuel1 b offs H1 H2 H3) in Hs1 by congruence. injection Hs1 as <-.
  rewrite (@calculate_stencil_size_any E fuel2 b offs H1 H2 H3) in Hs2 by congruence. injection Hs2 as <-.
  split; [reflexivity|].
  assert (Len : length (entries o b sorted) = length (in_bounds_pairs b offs)).
  { rewrite <- (@stencil_contents_length E o b offs sorted H2 Hp1). rewrite <- entries_contents, map_length. reflexivity. }
  rewrite <- Len in *.
  assert (G : forall pieces ts fuel, pieces_within (fun p => contains b p = true) (map snd pieces) ->
     Forall2 (fun m t => exists k, fill_csr_task fuel o b (fst m) (snd m) sorted = Ok (t, k)) pieces ts ->
     Forall2 (fun m t => csr_writes_like o b (fun p => p) (fst m) (snd m) sorted t) pieces ts).
  { clear -H2. intros pieces ts fuel Hw Hts.
    assert (Hor : nonempty_box b \/ Forall (fun m : (Z -> bool) * (point -> bool) => forall p, snd m p = false) pieces).
    { destruct (nonempty_box_dec b) as [Hn|Hn]; [left; exact Hn|right]. apply Forall_forall. intros m Hm p.
      destruct (snd m p) eqn:Q; [|reflexivity]. exfalso. apply Hn.
      assert (C : contains b p = true) by (eapply Hw; [apply in_map; exact Hm|exact Q]). apply contains_iff in C. eapply in_box_nonempty; exact C. }
    clear Hw. induction Hts as [|m t ms ts [k Hk] Hts IH]; constructor.
    - eapply csr_gen_like; [exact H2| |exact Hk]. destruct Hor as [Hn|Hf]; [left; exact Hn|right]. inversion Hf; subst; assumption.
    - apply IH. destruct Hor as [Hn|Hf]; [left; exact Hn|right]. inversion Hf; subst; assumption. }
  apply (@csr_same_entries E o b sorted (fun p => p) pieces1 pieces2 ts1 ts2); eauto.
  - intros q [p [Hp ->]]. apply C1'. apply contains_iff. exact Hp.
  - intros q [p [Hp ->]]. apply C2'. apply contains_iff. exact Hp.
Qed.

(** ** C27 *)
(** The task without slice skipping and early exit is [fill_csr_gen] with linearised coordinates. *)
Theorem C27_slice_skipping_only_an_optimisation : forall (E : Type) (b : rect) (mdom rdom : dom1) (sorted : list (point * E)),
  lo b <> [] -> nonempty_box b -> offsets_dim b sorted ->
  (forall k, dmem mdom k = true -> dlo mdom <= k <= dhi mdom) ->
  (forall k, dmem rdom k = true -> dlo rdom <= k <= dhi rdom) ->
  dlo mdom <= Z.of_nat (length (in_bounds_pairs b sorted)) \/ dlo rdom <= volume b ->
  exists F ws size, forall fuel, (F <= fuel)%nat ->
    fill_linearized_csr_task fuel ROW_MAJOR b mdom rdom sorted = Ok ws /\
    fill_csr_gen fuel ROW_MAJOR b (fun q => [linearize_row_major b q]) (dmem mdom) (fun p => dmem rdom (hd 0 p)) sorted = Ok (ws, size).
Proof.
  intros E b mdom rdom sorted H1 Hn H3 Hm Hr Hend.
  pose proof (nonempty_wf _ Hn) as Hwf.
  exists (Nat.max (Z.to_nat (volume b) + 1) (length (box_points ROW_MAJOR (clamp b)))). do 2 eexists. intros fuel Hf. split.
  - apply linearized_csr_skip_equals_plain; try assumption; [|lia].
    rewrite <- (@stencil_contents_length E ROW_MAJOR b sorted sorted Hwf (Permutation_refl _)) in Hend.
    rewrite <- entries_contents, map_length in Hend. exact Hend.
  - rewrite fill_csr_gen_spec by (try exact Hwf; unfold enough_fuel; lia). rewrite clamp_id by exact Hn. reflexivity.
Qed.
(** a piece for which slices are really skipped and the loop really stops early: 1-D 3-point stencil on 0..9,
    kernel piece 10..15, row piece 4..5; both tasks write the same six entries and two row pointers *)
Example C27_example :
  let m := mk_dom1 10 15 (fun k => (10 <=? k) && (k <=? 15)) in
  let r := mk_dom1 4 5 (fun k => (4 <=? k) && (k <=? 5)) in
  let b := mk_rect [0] [9] in let offs := [([-1], 7); ([0], 8); ([1], 9)] in
  exists ws k, fill_linearized_csr_task 20 ROW_MAJOR b m r offs = Ok ws /\
    fill_csr_gen 20 ROW_MAJOR b (fun q => [linearize_row_major b q]) (dmem m) (fun p => dmem r (hd 0 p)) offs = Ok (ws, k) /\
    length ws = 14%nat.
Proof. do 2 eexists. cbv. repeat split. Qed.

(** ** C28 *)
Definition strict_total_order {E} (P : E -> Prop) (ltE : E -> E -> bool) : Prop :=
  (forall x, P x -> ltE x x = false) /\
  (forall x y, P x -> P y -> ltE x y = false -> ltE y x = false -> x = y).

Lemma std_sort_unique E (ltE : E -> E -> bool) o d (offs1 offs2 sorted1 sorted2 : list (point * E)) :
  strict_total_order (fun e => In e (map snd offs1)) ltE -> Forall (fun oe => length (fst oe) = d) offs1 ->
  Permutation offs1 offs2 -> std_sort ltE o offs1 sorted1 -> std_sort ltE o offs2 sorted2 -> sorted1 = sorted2.
Proof.
  intros [I T] Hd Hp [P1 S1] [P2 S2].
  assert (PP : Permutation sorted1 sorted2) by (rewrite <- P1, Hp; exact P2).
  assert (Sub1 : forall x, In x sorted1 -> In x offs1) by (intros x Hx; eapply Permutation_in; [symmetry; exact P1|exact Hx]).
  rewrite Forall_forall in Hd. clear P1 P2 Hp offs2.
  revert sorted2 S2 PP. induction S1 as [|x l1 S1 IH F1]; intros sorted2 S2 PP.
  - apply Permutation_nil in PP. congruence.
  - destruct sorted2 as [|y l2]; [apply Permutation_sym, Permutation_nil in PP; discriminate|].
    inversion S2 as [|? ? S2' F2]; subst. rewrite Forall_forall in F1, F2.
    assert (Exy : x = y).
    { assert (Hy : In y (x :: l1)) by (eapply Permutation_in; [symmetry; exact PP|left; reflexivity]).
      assert (Hx : In x (y :: l2)) by (eapply Permutation_in; [exact PP|left; reflexivity]).
      destruct Hy as [Hy|Hy]; [exact Hy|]. destruct Hx as [Hx|Hx]; [symmetry; exact Hx|].
      specialize (F1 y Hy). specialize (F2 x Hx). unfold offset_less in F1, F2.
      assert (Ix : In x offs1) by (apply Sub1; left; reflexivity). assert (Iy : In y offs1) by (apply Sub1; right; exact Hy).
      pose proof (Hd x Ix) as Lx. pose proof (Hd y Iy) as Ly. destruct x as [p e], y as [q f]. cbn [fst snd] in *.
      assert (Hl : length p = length q) by congruence.
      destruct (compare o q p) eqn:A; [discriminate|]. destruct (compare o p q) eqn:B; [discriminate|].
      rewrite (compare_total o p q Hl B A). f_equal.
      apply T; [change e with (snd (p, e)); apply in_map; exact Ix|change f with (snd (q, f)); apply in_map; exact Iy|exact F2|exact F1]. }
    subst y. f_equal. apply IH; [intros z Hz; apply Sub1; right; exact Hz|exact S2'|]. eapply Permutation_cons_inv. exact PP.
Qed.

Theorem C28_contents_independent_of_offset_order : forall (E : Type) (ltE : E -> E -> bool) linear fuel1 fuel2 o b
    (offs1 offs2 sorted1 sorted2 : list (point * E)) pieces1 pieces2 tr1 tr2 size1 size2 (s : loc -> cell E),
  lo b <> [] -> wf_box b -> offsets_dim b offs1 ->
  strict_total_order (fun e => In e (map snd offs1)) ltE ->
  Permutation offs1 offs2 ->
  create_coo_stencil ltE linear fuel1 o b offs1 sorted1 pieces1 tr1 size1 ->
  create_coo_stencil ltE linear fuel2 o b offs2 sorted2 pieces2 tr2 size2 ->
  size1 = size2 /\ forall l, run loc_eq_dec tr1 s l = run loc_eq_dec tr2 s l.
Proof.
  intros E ltE linear fuel1 fuel2 o b offs1 offs2 sorted1 sorted2 pieces1 pieces2 tr1 tr2 size1 size2 s H1 H2 H3 Ht Hp Hc1 Hc2.
  assert (Es : sorted1 = sorted2).
  { destruct Hc1 as (_ & _ & S1 & _). destruct Hc2 as (_ & _ & S2 & _).
    eapply (@std_sort_unique E ltE o (length (lo b)) offs1 offs2); eassumption. }
  subst sorted2.
  assert (H3' : offsets_dim b offs2) by (unfold offsets_dim; eapply Permutation_Forall; [exact Hp|exact H3]).
  destruct (create_coo_like H1 H2 H3 Hc1) as (Hsz1 & Q1 & _).
  destruct (create_coo_like H1 H2 H3' Hc2) as (Hsz2 & Q2 & _).
  assert (Hc1' : exists size, create_coo_stencil ltE linear (Nat.max fuel1 fuel2) o b offs1 sorted1 pieces2 tr2 size).
  { destruct Hc1 as (Hs1 & _ & S1 & _). destruct Hc2 as (Hs2 & Hpart & S2 & ts & Hts & Hil).
    exists size1. split; [unfold calculate_stencil_size in *; rewrite stencil_size_aux_mono with (f := fuel1); [exact Hs1|rewrite Hs1; discriminate|lia]|].
    split; [replace size1 with size2 by congruence; exact Hpart|]. split; [exact S1|]. exists ts. split; [|exact Hil].
    clear Hil Hpart. induction Hts as [|m t ms ts [k Hk] Hts IH]; constructor; [|exact IH]. exists k.
    destruct linear; eapply fill_loop_mono; try exact Hk; lia. }
  destruct Hc1' as [size Hc1'].
  pose proof (C25_coo_contents_piece_independent s H1 H2 H3 Hc1 Hc1') as [_ R].
  split; [congruence|exact R].
Qed.

Lemma lin_pieces_like E fuel o b (sorted : list (point * E)) pieces ts :
  lo b <> [] -> nonempty_box b -> offsets_dim b sorted ->
  Forall (fun m => (forall k, dmem (fst m) k = true -> dlo (fst m) <= k <= dhi (fst m)) /\ dom1_ok (volume b) (snd m)) pieces ->
  Forall2 (fun m t => fill_linearized_csr_task fuel o b (fst m) (snd m) sorted = Ok t) pieces ts ->
  Forall2 (fun m t => csr_writes_like o b (fun p => [linearize o b p]) (fst m) (snd m) sorted t)
    (map (fun m : dom1 * dom1 => (dmem (fst m), fun p : point => dmem (snd m) (hd 0 p))) pieces) ts.
Proof.
  intros H1 Hn Hds Hdom Hts. induction Hts as [|m t ms ts Hk Hts IH]; constructor.
  - inversion Hdom as [|? ? [D1 [D2 D3]] Hdom']; subst. cbn [fst snd]. eapply lin_csr_like; eauto.
  - apply IH. inversion Hdom; assumption.
Qed.
Lemma lin_disjoint_rows (pieces : list (dom1 * dom1)) :
  disjoint_pieces (map (fun m => dmem (snd m)) pieces) ->
  disjoint_pieces (map snd (map (fun m : dom1 * dom1 => (dmem (fst m), fun p : point => dmem (snd m) (hd 0 p))) pieces)).
Proof.
  intros Hd2. rewrite map_map. cbn [snd]. intros i j mi mj a Hi Hj Ha Hb.
  rewrite nth_error_map_some in Hi, Hj.
  destruct (nth_error pieces i) as [di|] eqn:Qi; [|discriminate]. destruct (nth_error pieces j) as [dj|] eqn:Qj; [|discriminate].
  injection Hi as <-. injection Hj as <-. apply (Hd2 i j (dmem (snd di)) (dmem (snd dj)) (hd 0 a)); try assumption;
    rewrite nth_error_map_some; [rewrite Qi|rewrite Qj]; reflexivity.
Qed.

(** C25 and C28 together for the CSR variants: number of pieces, schedule and offset order do not matter. *)
Theorem C25_C28_linearized_csr_independent : forall (E : Type) (ltE : E -> E -> bool) fuel1 fuel2 o b
    (offs1 offs2 sorted1 sorted2 : list (point * E)) pieces1 pieces2 tr1 tr2 size1 size2 (s : loc -> cell E),
  lo b <> [] -> nonempty_box b -> offsets_dim b offs1 ->
  (sorted1 = sorted2 \/ strict_total_order (fun e => In e (map snd offs1)) ltE) ->
  Permutation offs1 offs2 ->
  create_linearized_csr_stencil ltE fuel1 o b offs1 sorted1 pieces1 tr1 size1 ->
  create_linearized_csr_stencil ltE fuel2 o b offs2 sorted2 pieces2 tr2 size2 ->
  size1 = size2 /\ forall l, run loc_eq_dec tr1 s l = run loc_eq_dec tr2 s l.
Proof.
  intros E ltE fuel1 fuel2 o b offs1 offs2 sorted1 sorted2 pieces1 pieces2 tr1 tr2 size1 size2 s H1 Hn H3 Hor Hp
    (Hs1 & (C1 & D1 & W1) & (C1' & D1' & W1') & Dm1 & S1 & ts1 & T1 & I1) (Hs2 & (C2 & D2 & W2) & (C2' & D2' & W2') & Dm2 & S2 & ts2 & T2 & I2).
  pose proof (nonempty_wf _ Hn) as H2.
  assert (Es : sorted1 = sorted2).
  { destruct Hor as [Q|Q]; [exact Q|]. eapply (@std_sort_unique E ltE o (length (lo b)) offs1 offs2); eassumption. }
  subst sorted2.
  assert (H3' : offsets_dim b offs2) by (unfold offsets_dim; eapply Permutation_Forall; [exact Hp|exact H3]).
  assert (H3s : offsets_dim b sorted1) by (unfold offsets_dim; eapply Permutation_Forall; [apply S1|exact H3]).
  rewrite (@calculate_stencil_size_any E fuel1 b offs1 H1 H2 H3) in Hs1 by congruence. injection Hs1 as <-.
  rewrite (@calculate_stencil_size_any E fuel2 b offs2 H1 H2 H3') in Hs2 by congruence. injection Hs2 as <-.
  assert (Len1 : length (entries o b sorted1) = length (in_bounds_pairs b offs1)).
  { rewrite <- (@stencil_contents_length E o b offs1 sorted1 H2 (proj1 S1)). rewrite <- entries_contents, map_length. reflexivity. }
  assert (Len2 : length (entries o b sorted1) = length (in_bounds_pairs b offs2)).
  { rewrite <- (@stencil_contents_length E o b offs2 sorted1 H2 (proj1 S2)). rewrite <- entries_contents, map_length. reflexivity. }
  rewrite <- Len1, <- Len2 in *. split; [reflexivity|].
  pose proof (@lin_pieces_like E fuel1 o b sorted1 pieces1 ts1 H1 Hn H3s Dm1 T1) as L1. pose proof (@lin_pieces_like E fuel2 o b sorted1 pieces2 ts2 H1 Hn H3s Dm2 T2) as L2.
  set (lift := fun m : dom1 * dom1 => (dmem (fst m), fun p : point => dmem (snd m) (hd 0 p))) in *.
  apply (@csr_same_entries E o b sorted1 (fun p => [linearize o b p]) (map lift pieces1) (map lift pieces2) ts1 ts2 tr1 tr2 s H2); try exact L1; try exact L2; try exact I1; try exact I2.
  - intros p q Hpb Hqb H. injection H as H. eapply linearize_inj; eassumption.
  - rewrite map_map. exact D1.
  - apply lin_disjoint_rows. exact D1'.
  - rewrite map_map. exact D2.
  - apply lin_disjoint_rows. exact D2'.
  - rewrite map_map. exact C1.
  - rewrite map_map. exact C2.
  - intros q [p [Hpb ->]]. destruct (C1' (linearize o b p)) as [m [Hm Hmp]]; [pose proof (linearize_range o b p Hpb); lia|].
    apply in_map_iff in Hm. destruct Hm as [dm [<- Hdm]]. rewrite map_map. exists (fun p0 : point => dmem (snd dm) (hd 0 p0)).
    split; [apply in_map_iff; exists dm; split; [reflexivity|exact Hdm]|exact Hmp].
  - intros q [p [Hpb ->]]. destruct (C2' (linearize o b p)) as [m [Hm Hmp]]; [pose proof (linearize_range o b p Hpb); lia|].
    apply in_map_iff in Hm. destruct Hm as [dm [<- Hdm]]. rewrite map_map. exists (fun p0 : point => dmem (snd dm) (hd 0 p0)).
    split; [apply in_map_iff; exists dm; split; [reflexivity|exact Hdm]|exact Hmp].
Qed.

Theorem C28_csr_contents_independent_of_offset_order : forall (E : Type) (ltE : E -> E -> bool) fuel1 fuel2 o b
    (offs1 offs2 sorted1 sorted2 : list (point * E)) pieces1 pieces2 tr1 tr2 size1 size2 (s : loc -> cell E),
  lo b <> [] -> wf_box b -> offsets_dim b offs1 ->
  strict_total_order (fun e => In e (map snd offs1)) ltE ->
  Permutation offs1 offs2 ->
  create_csr_stencil ltE fuel1 o b offs1 sorted1 pieces1 tr1 size1 ->
  create_csr_stencil ltE fuel2 o b offs2 sorted2 pieces2 tr2 size2 ->
  size1 = size2 /\ forall l, run loc_eq_dec tr1 s l = run loc_eq_dec tr2 s l.
Proof.
  intros E ltE fuel1 fuel2 o b offs1 offs2 sorted1 sorted2 pieces1 pieces2 tr1 tr2 size1 size2 s H1 H2 H3 Ht Hp Hc1 Hc2.
  assert (Es : sorted1 = sorted2).
  { destruct Hc1 as (_ & _ & _ & S1 & _). destruct Hc2 as (_ & _ & _ & S2 & _).
    eapply (@std_sort_unique E ltE o (length (lo b)) offs1 offs2); eassumption. }
  subst sorted2.
  assert (H3' : offsets_dim b offs2) by (unfold offsets_dim; eapply Permutation_Forall; [exact Hp|exact H3]).
  assert (Hsz : calculate_stencil_size fuel2 b offs2 <> OutOfFuel /\ size1 = size2).
  { destruct Hc1 as (Hs1 & _ & _ & S1 & _). destruct Hc2 as (Hs2 & _ & _ & S2 & _). split; [congruence|].
    rewrite (@calculate_stencil_size_any E fuel1 b offs1 H1 H2 H3) in Hs1 by congruence. injection Hs1 as <-.
    rewrite (@calculate_stencil_size_any E fuel2 b offs2 H1 H2 H3') in Hs2 by congruence. injection Hs2 as <-.
    rewrite <- (@stencil_contents_length E o b offs1 sorted1 H2 (proj1 S1)), <- (@stencil_contents_length E o b offs2 sorted1 H2 (proj1 S2)). reflexivity. }
  destruct Hsz as [_ Hsz].
  assert (Hc1' : create_csr_stencil ltE (Nat.max fuel1 fuel2) o b offs1 sorted1 pieces2 tr2 size1).
  { destruct Hc1 as (Hs1 & _ & _ & S1 & _). destruct Hc2 as (Hs2 & Hpart & Hpart' & S2 & ts & Hts & Hil).
    split; [unfold calculate_stencil_size in *; rewrite stencil_size_aux_mono with (f := fuel1); [exact Hs1|rewrite Hs1; discriminate|lia]|].
    split; [rewrite Hsz; exact Hpart|]. split; [exact Hpart'|]. split; [exact S1|]. exists ts. split; [|exact Hil].
    clear Hil Hpart Hpart'. induction Hts as [|m t ms ts [k Hk] Hts IH]; constructor; [|exact IH]. exists k.
    eapply fill_loop_mono; [exact Hk|lia]. }
  pose proof (C25_csr_contents_piece_independent s H1 H2 H3 Hc1 Hc1') as [_ R].
  split; [exact Hsz|exact R].
Qed.

(** ** a concrete execution: 1-D Laplacian on 0..2, offsets given out of order, two pieces *)
Definition ex_offs : list (point * Z) := [([1], -1); ([0], 2); ([-1], -1)].
Definition ex_sorted : list (point * Z) := [([-1], -1); ([0], 2); ([1], -1)].
Definition ex_box := mk_rect [0] [2].
Lemma ex_sort : std_sort Z.ltb ROW_MAJOR ex_offs ex_sorted.
Proof.
  split.
  - unfold ex_offs, ex_sorted. apply Permutation_sym. change ([([-1], -1); ([0], 2); ([1], -1)] : list (point * Z)) with (rev [([1], -1); ([0], 2); ([-1], -1)] : list (point * Z)).
    apply Permutation_sym, Permutation_rev.
  - repeat constructor.
Qed.
Definition ex_pieces : list (Z -> bool) := [fun k => (0 <=? k) && (k <=? 3); fun k => (4 <=? k) && (k <=? 6)].
Lemma ex_partition : is_partition (kernel_space 7) ex_pieces.
Proof.
  unfold ex_pieces, kernel_space. split; [|split].
  - intros k Hk. destruct (Z_le_dec k 3); [exists (fun k => (0 <=? k) && (k <=? 3))|exists (fun k => (4 <=? k) && (k <=? 6))];
      (split; [simpl; auto|lia]).
  - intros [|[|i]] [|[|j]] mi mj a Hi Hj Ha Hb; simpl in Hi, Hj; try reflexivity;
      try (destruct i; discriminate); try (destruct j; discriminate); injection Hi as <-; injection Hj as <-; lia.
  - intros m a [<-|[<-|[]]] Ha; lia.
Qed.
Lemma forall2_exists A B (R : A -> B -> Prop) l : (forall a, In a l -> exists b, R a b) -> exists l', Forall2 R l l'.
Proof.
  induction l as [|a l IH]; intros H; [exists []; constructor|].
  destruct (H a (or_introl eq_refl)) as [b Hb]. destruct IH as [l' Hl']; [intros x Hx; apply H; right; exact Hx|].
  exists (b :: l'). constructor; assumption.
Qed.
Example C24_example : exists tr, create_coo_stencil Z.ltb false 10 ROW_MAJOR ex_box ex_offs ex_sorted ex_pieces tr 7 /\
  run loc_eq_dec tr (fun _ => CRect 0 0) (LRow 3) = CPoint [1] /\
  run loc_eq_dec tr (fun _ => CRect 0 0) (LCol 3) = CPoint [1] /\
  run loc_eq_dec tr (fun _ => CRect 0 0) (LEntry 3) = CEntry 2 /\
  run loc_eq_dec tr (fun _ => CRect 0 0) (LCol 5) = CPoint [1].
Proof.
  eexists. split.
  - split; [reflexivity|]. split; [exact ex_partition|]. split; [exact ex_sort|].
    eexists. split; [|apply interleave_concat].
    unfold ex_pieces. constructor; [eexists; reflexivity|]. constructor; [eexists; reflexivity|constructor].
  - cbv. repeat split.
Qed.
Example C26_example : exists tr, create_csr_stencil Z.ltb 10 ROW_MAJOR ex_box ex_offs ex_sorted
    [(fun k => (0 <=? k) && (k <=? 3), fun p => contains (mk_rect [0] [0]) p);
     (fun k => (4 <=? k) && (k <=? 6), fun p => contains (mk_rect [1] [2]) p)] tr 7 /\
  run loc_eq_dec tr (fun _ => CRect 0 0) (LRowptr [1]) = CRect 2 4 /\
  run loc_eq_dec tr (fun _ => CRect 0 0) (LCol 4) = CPoint [2].
Proof.
  eexists. split.
  - split; [reflexivity|]. split; [exact ex_partition|]. split; [|split; [exact ex_sort|]].
    + split; [|split].
      * intros p Hp. apply contains_iff in Hp. destruct Hp as (H1 & _ & H2). simpl in H1. destruct p as [|x [|]]; try discriminate.
        specialize (H2 0%nat ltac:(simpl; lia)). simpl in H2.
        destruct (Z.eq_dec x 0); [exists (fun p => contains (mk_rect [0] [0]) p)|exists (fun p => contains (mk_rect [1] [2]) p)];
          (split; [simpl; auto|]); unfold contains; simpl; lia.
      * intros [|[|i]] [|[|j]] mi mj a Hi Hj Ha Hb; simpl in Hi, Hj; try reflexivity;
          try (destruct i; discriminate); try (destruct j; discriminate); injection Hi as <-; injection Hj as <-;
          destruct a as [|x [|]]; unfold contains in *; simpl in *; lia.
      * intros m a [<-|[<-|[]]] Ha; destruct a as [|x [|]]; unfold contains in *; simpl in *; lia.
    + eexists. split; [|apply interleave_concat].
      constructor; [eexists; reflexivity|]. constructor; [eexists; reflexivity|constructor].
  - cbv. repeat split.
Qed.
Example C28_example : strict_total_order (fun e => In e (map snd ex_offs)) Z.ltb.
Proof. split; intros; lia. Qed.
