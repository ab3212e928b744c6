(** PropsPitchesMachine: C81 - up to which sizes the hand-written GPU kernel of XPAY, computing in C++ machine integers,
    visits every entry of a piece exactly once, and what happens beyond. *)
From Verif Require Import Base Index IndexSpec IndexFacts Outcome Pitches PropsPitches PitchesMachine.
Set Implicit Arguments.
Local Open Scope Z_scope.

(** a coordinate type of 1 to 64 bits *)
Definition machine_type (c : ctype) : Prop := 1 <= width c <= 64.
Definition extent (b : rect) (i : nat) : Z := nth i (hi b) 0 - nth i (lo b) 0 + 1.
(** the corners are values of the type *)
Definition corners_in (c : ctype) (b : rect) : Prop :=
  forall i, (i < length (lo b))%nat -> ct_min c <= nth i (lo b) 0 <= ct_max c /\ ct_min c <= nth i (hi b) 0 <= ct_max c.
(** every side is at most the type's largest value *)
Definition extents_fit (c : ctype) (b : rect) : Prop := forall i, (i < length (lo b))%nat -> extent b i <= ct_max c.

Fixpoint fits_aux (c : ctype) (l h : point) : Prop :=
  match l, h with l0 :: l', h0 :: h' => h0 - l0 + 1 <= ct_max c /\ fits_aux c l' h' | _, _ => True end.
Lemma fits_aux_iff c l : forall h, length l = length h ->
  (forall i, (i < length l)%nat -> nth i h 0 - nth i l 0 + 1 <= ct_max c) -> fits_aux c l h.
Proof.
  induction l as [|l0 l IH]; intros [|h0 h] E H; try discriminate E; cbn; auto. split.
  - apply (H 0%nat). cbn. lia.
  - apply IH; [cbn in E; lia|]. intros i Hi. apply (H (S i)). cbn. lia.
Qed.

Section Type_.
Variable c : ctype.
Hypothesis Hc : machine_type c.

Lemma pow_split : 0 < 2 ^ width c /\ 0 < 2 ^ (width c - 1) /\ 2 ^ width c = 2 * 2 ^ (width c - 1) /\ 2 ^ width c <= 2 ^ 64 /\ (2 ^ width c | 2 ^ 64).
Proof.
  unfold machine_type in Hc. repeat split.
  - apply Z.pow_pos_nonneg; lia.
  - apply Z.pow_pos_nonneg; lia.
  - rewrite <- Z.pow_succ_r by lia. f_equal. lia.
  - apply Z.pow_le_mono_r; lia.
  - exists (2 ^ (64 - width c)). rewrite <- Z.pow_add_r by lia. f_equal. lia.
Qed.
Lemma ct_max_lt : 0 <= ct_max c < 2 ^ 64.
Proof. destruct pow_split as (A & B & D & E & _). unfold ct_max. destruct (is_signed c); lia. Qed.
Lemma ct_min_le : ct_min c <= 0.
Proof. destruct pow_split as (A & B & D & E & _). unfold ct_min. destruct (is_signed c); lia. Qed.

Lemma coord_expr_ok z : ct_min c <= z <= ct_max c -> coord_expr c z = Ok z.
Proof.
  intros H. unfold coord_expr, in_type. destruct (is_signed c) eqn:S.
  - rewrite !(proj2 (Z.leb_le _ _)) by lia. reflexivity.
  - unfold ct_min, ct_max in H. rewrite S in H. rewrite Z.mod_small by lia. reflexivity.
Qed.
Lemma size_id z : 0 <= z < 2 ^ 64 -> size z = z.
Proof. intros H. apply Z.mod_small. exact H. Qed.
Lemma m_diff_ok l0 h0 : l0 <= h0 -> h0 - l0 + 1 <= ct_max c -> m_diff c l0 h0 = Ok (h0 - l0 + 1).
Proof.
  intros H1 H2. pose proof ct_max_lt. pose proof ct_min_le. unfold m_diff. rewrite coord_expr_ok by lia. cbn [obind].
  rewrite coord_expr_ok by lia. cbn [obind]. rewrite size_id by lia. reflexivity.
Qed.

Lemma m_tail_ok l : forall h, nonempty_aux l h -> fits_aux c l h -> volume_aux l h < 2 ^ 64 ->
  m_flatten_c_tail c l h = Ok (Some (volume_aux l h, volume_aux l h, suffix l h)).
Proof.
  induction l as [|l0 l IH]; intros [|h0 h]; try (cbn; tauto).
  intros [H1 H2] [F1 F2] V. pose proof (nonempty_volume _ _ H2) as P. pose proof (@volume_cons _ l _ h H1) as E. rewrite E in V.
  cbn [m_flatten_c_tail suffix]. rewrite IH by (try assumption; nia). cbn [obind]. rewrite gtb_le by exact H1.
  rewrite m_diff_ok by assumption. cbn [obind]. rewrite <- E in *. rewrite !size_id by nia. reflexivity.
Qed.
Lemma m_tail_empty l : forall h, length l = length h -> ~ nonempty_aux l h -> fits_aux c l h -> m_flatten_c_tail c l h = Ok None.
Proof.
  induction l as [|l0 l IH]; intros [|h0 h] Hl H F; try discriminate Hl; try (cbn in H; tauto).
  cbn [m_flatten_c_tail]. destruct F as [F1 F2].
  destruct (nonempty_box_dec (mk_rect l h)) as [D|D].
  - apply nonempty_box_aux in D. cbn [lo hi] in D.
    assert (E: exists x, m_flatten_c_tail c l h = Ok (Some x)).
    { clear - D F2 Hc. revert h D F2. induction l as [|l1 l IH]; intros [|h1 h] D F2; try (cbn in D; tauto); [eexists; reflexivity|].
      destruct D as [D1 D2]. destruct F2 as [F1 F2]. destruct (IH _ D2 F2) as [[[u v] w] E]. cbn [m_flatten_c_tail]. rewrite E. cbn [obind].
      rewrite gtb_le by exact D1. rewrite m_diff_ok by assumption. eexists. reflexivity. }
    destruct E as [[[u v] w] E]. rewrite E. cbn [obind]. destruct (Z.gtb_spec l0 h0); [reflexivity|]. exfalso. apply H. split; [lia|exact D].
  - rewrite IH; [reflexivity|cbn in Hl; lia| |exact F2]. intros N. apply D. apply nonempty_box_aux. exact N.
Qed.

Lemma m_loop_ok l : forall h a ps, (0 < length l)%nat -> nonempty_aux l h -> fits_aux c l h -> 0 < a -> a * volume_aux l h < 2 ^ 64 ->
  m_flatten_f_loop c a a ps l h = Ok (a * volume_aux l h, ps ++ prefix a l h).
Proof.
  induction l as [|l0 l IH]; intros [|h0 h] a ps Hl H F A V; try (cbn in H; tauto); try (cbn in Hl; lia).
  destruct H as [H1 H2]. destruct F as [F1 F2]. cbn [m_flatten_f_loop prefix]. rewrite gtb_le by exact H1.
  rewrite m_diff_ok by assumption. cbn [obind]. pose proof (nonempty_volume _ _ H2) as P. rewrite volume_cons in * by exact H1.
  assert (B: a * (h0 - l0 + 1) < 2 ^ 64) by nia.
  rewrite !size_id by nia. destruct l as [|l1 l].
  - destruct h; [|cbn in H2; tauto]. cbn [volume_aux]. rewrite app_nil_r. f_equal. f_equal. ring.
  - rewrite IH; [|cbn; lia|exact H2|exact F2|nia|nia]. rewrite <- app_assoc. cbn [app]. f_equal. f_equal. ring.
Qed.
Lemma m_loop_empty l : forall h u v ps, (0 < length l)%nat -> length l = length h -> ~ nonempty_aux l h -> fits_aux c l h ->
  m_flatten_f_loop c u v ps l h = Ok (0, []).
Proof.
  induction l as [|l0 l IH]; intros [|h0 h] u v ps Hl E H F; try discriminate E; try (cbn in Hl; lia).
  destruct F as [F1 F2]. cbn [m_flatten_f_loop]. destruct (Z.gtb_spec l0 h0) as [G|G]; [reflexivity|].
  rewrite m_diff_ok by (try assumption; lia). cbn [obind]. destruct l as [|l1 l].
  - exfalso. destruct h; [|discriminate E]. apply H. cbn. lia.
  - apply IH; [cbn; lia|cbn in E |- *; lia| |exact F2]. intros N. apply H. split; [lia|exact N].
Qed.

Lemma to_coord_eq z y : ct_min c <= y <= ct_max c -> (z mod 2 ^ width c = y mod 2 ^ width c)%Z -> to_coord c z = y.
Proof.
  intros H E. destruct pow_split as (A & B & D & _ & _). unfold to_coord, ct_min, ct_max in *. rewrite E. destruct (is_signed c).
  - destruct (Z.ltb_spec (y mod 2 ^ width c) (2 ^ (width c - 1))) as [L|L]; destruct (Z.neg_nonneg_cases y) as [N|N].
    + exfalso. rewrite <- (Z.mod_add y 1) in L by lia. rewrite Z.mod_small in L by lia. lia.
    + apply Z.mod_small. lia.
    + rewrite <- (Z.mod_add y 1) by lia. rewrite Z.mod_small by lia. lia.
    + exfalso. rewrite Z.mod_small in L by lia. lia.
  - apply Z.mod_small. lia.
Qed.
Lemma m_plus_ok x q : ct_min c <= x + q <= ct_max c -> m_plus c x q = x + q.
Proof.
  intros H. destruct pow_split as (A & _ & _ & _ & [m E]). unfold m_plus. apply to_coord_eq; [exact H|].
  unfold size. rewrite Z.add_mod_idemp_l by lia. symmetry. apply Znumtheory.Zmod_div_mod; try lia. exists m. exact E.
Qed.
Lemma m_unflatten_c_ok ps : forall k l, Forall (fun p => p <> 0) ps ->
  Forall (fun x => ct_min c <= x <= ct_max c) (unflatten_c ps k l) -> m_unflatten_c c ps k l = Ok (unflatten_c ps k l).
Proof.
  induction ps as [|p ps IH]; intros k [|x l] P F; cbn [m_unflatten_c unflatten_c] in *; try reflexivity.
  - inversion F; subst. rewrite m_plus_ok by assumption. reflexivity.
  - inversion F; subst. inversion P; subst. rewrite (proj2 (Z.eqb_neq _ _)) by assumption. rewrite IH by assumption. cbn [obind].
    rewrite m_plus_ok by assumption. reflexivity.
Qed.
End Type_.

Lemma suffix_pos l : forall h, nonempty_aux l h -> Forall (fun p => p <> 0) (suffix l h).
Proof.
  induction l as [|l0 l IH]; intros [|h0 h] H; try (cbn in H; tauto); [constructor|].
  cbn [suffix]. constructor; [pose proof (nonempty_volume _ _ H); lia|]. apply IH. apply H.
Qed.
Lemma sfx_pos l h : nonempty_aux l h -> Forall (fun p => p <> 0) (sfx l h).
Proof. intros H. unfold sfx. destruct l as [|l0 l], h as [|h0 h]; try (cbn in H; tauto); [constructor|]. apply suffix_pos. apply H. Qed.
Lemma Forall_rev' A (P : A -> Prop) l : Forall P l -> Forall P (rev l).
Proof. intros H. apply Forall_forall. intros x Hx. rewrite Forall_forall in H. apply H. apply in_rev. exact Hx. Qed.
Lemma box_coords c b p : corners_in c b -> in_box b p -> Forall (fun x => ct_min c <= x <= ct_max c) p.
Proof.
  intros C (L1 & L2 & H). apply Forall_forall. intros x Hx. apply In_nth with (d := 0) in Hx. destruct Hx as (i & Hi & E).
  specialize (H i Hi). specialize (C i ltac:(lia)). rewrite <- E. lia.
Qed.

(** C81.  For every coordinate type, order and box (of any dimension >= 1) with corners of that type, no side larger than
    the type's largest value and fewer than 2^64 points: flatten in machine arithmetic has defined behaviour and returns
    exactly the mathematical result, and so does unflatten for every index below the volume. *)
Theorem C81_machine_flatten : forall c o b, machine_type c -> wf_box b -> (0 < length (lo b))%nat ->
  corners_in c b -> extents_fit c b -> volume b < 2 ^ 64 ->
  m_flatten c o b = Ok (flatten o b) /\
  forall k, 0 <= k < volume b -> m_unflatten c o (snd (flatten o b)) k (lo b) = Ok (unflatten o (snd (flatten o b)) k (lo b)).
Proof.
  intros c o b Hc Hw Hl C F V. assert (Fa: fits_aux c (lo b) (hi b)) by (apply fits_aux_iff; [exact Hw|exact F]). split.
  - destruct (nonempty_box_dec b) as [D|D].
    + destruct o; cbn [m_flatten flatten].
      * rewrite flatten_c_spec by assumption. apply nonempty_box_aux in D. unfold m_flatten_c, volume, sfx in *.
        destruct (lo b) as [|l0 l], (hi b) as [|h0 h]; try (cbn in D; tauto); try (cbn in Hl; lia).
        destruct D as [D1 D2]. destruct Fa as [F1 F2]. pose proof (nonempty_volume _ _ D2) as P. pose proof (@volume_cons _ l _ h D1) as E. rewrite E in V.
        rewrite (m_tail_ok Hc) by (try assumption; nia). cbn [obind tl]. rewrite gtb_le by exact D1. rewrite m_diff_ok by assumption. cbn [obind].
        rewrite E. rewrite size_id by nia. reflexivity.
      * apply nonempty_box_aux in D. unfold flatten_f. rewrite flatten_f_loop_spec by assumption.
        apply m_loop_ok; try assumption; try lia. unfold volume in V. lia.
    + assert (D': ~ nonempty_aux (lo b) (hi b)) by (intros N; apply D, nonempty_box_aux, N). unfold wf_box in Hw.
      destruct o; cbn [m_flatten flatten].
      * unfold m_flatten_c, flatten_c. destruct (lo b) as [|l0 l], (hi b) as [|h0 h]; try discriminate Hw; [cbn in Hl; lia|].
        destruct Fa as [F1 F2]. destruct (nonempty_box_dec (mk_rect l h)) as [N|N].
        -- apply nonempty_box_aux in N. cbn [lo hi] in N. assert (G: l0 > h0) by (destruct (Z_gt_dec l0 h0); [assumption|exfalso; apply D'; split; [lia|exact N]]).
           rewrite (flatten_c_tail_spec _ _ N). 
           destruct (m_flatten_c_tail c l h) as [[[[u v] w]|]| | |] eqn:E; cbn [obind];
             try (rewrite (proj2 (Z.gtb_lt l0 h0)) by lia; reflexivity).
           all: exfalso; clear - E N F2 Hc; revert h N F2 E; induction l as [|l1 l IH]; intros [|h1 h] N F2 E; try (cbn in N; tauto); try discriminate E;
             destruct N as [N1 N2]; destruct F2 as [F1 F2]; cbn [m_flatten_c_tail] in E;
             destruct (m_flatten_c_tail c l h) as [[[[u' v'] w']|]| | |] eqn:E'; cbn [obind] in E; try (eapply IH; eassumption); try discriminate E;
             rewrite gtb_le in E by exact N1; rewrite m_diff_ok in E by assumption; discriminate E.
        -- assert (N': ~ nonempty_aux l h) by (intros N'; apply N, nonempty_box_aux, N').
           rewrite flatten_c_tail_empty, (@m_tail_empty c Hc) by (try assumption; cbn in Hw; lia). reflexivity.
      * rewrite m_loop_empty by assumption. 
        assert (G: forall l h u v ps, (0 < length l)%nat -> length l = length h -> ~ nonempty_aux l h -> flatten_f_loop u v ps l h = (0, [])).
        { clear. induction l as [|l0 l IH]; intros [|h0 h] u v ps Hl E H; try discriminate E; try (cbn in Hl; lia).
          cbn [flatten_f_loop]. destruct (Z.gtb_spec l0 h0) as [G|G]; [reflexivity|]. destruct l as [|l1 l].
          - exfalso. destruct h; [|discriminate E]. apply H. cbn. lia.
          - apply IH; [cbn; lia|cbn in E |- *; lia|]. intros N. apply H. split; [lia|exact N]. }
        unfold flatten_f. rewrite G by assumption. reflexivity.
  - intros k Hk. destruct (C35_flatten_unflatten o b Hw Hl) as (_ & _ & _ & I). destruct (I k Hk) as [Ib _].
    pose proof (box_coords C Ib) as FB. assert (N: nonempty_box b) by (eapply in_box_nonempty; exact Ib). pose proof N as N'. apply nonempty_box_aux in N'.
    destruct o; cbn [m_unflatten unflatten flatten] in *.
    + apply m_unflatten_c_ok; [exact Hc| |exact FB]. rewrite flatten_c_spec by assumption. cbn [snd]. apply sfx_pos. exact N'.
    + unfold unflatten_f in FB |- *. rewrite m_unflatten_c_ok; [reflexivity|exact Hc| |].
      * apply Forall_rev'. rewrite flatten_f_spec by assumption. cbn [snd]. apply Forall_rev'. apply sfx_pos. apply nonempty_aux_rev. exact N'.
      * apply Forall_rev' in FB. rewrite rev_involutive in FB. exact FB.
Qed.

(** ... and for a signed type, beyond the type's largest value the behaviour is undefined: any box with a larger side. *)
Theorem C81_signed_overflow : forall c o b, machine_type c -> is_signed c = true -> nonempty_box b ->
  (exists i, (i < length (lo b))%nat /\ extent b i > ct_max c) -> m_flatten c o b = UB.
Proof.
  intros c o b Hc S D [i [Hi X]]. apply nonempty_box_aux in D. unfold extent in X.
  assert (Dv: forall l0 h0, l0 <= h0 -> m_diff c l0 h0 = (if h0 - l0 + 1 <=? ct_max c then Ok (h0 - l0 + 1) else UB)).
  { intros l0 h0 H. destruct (Z.leb_spec (h0 - l0 + 1) (ct_max c)) as [L|L]; [apply m_diff_ok; assumption|].
    pose proof (ct_max_lt Hc). pose proof (ct_min_le Hc). unfold m_diff, coord_expr, in_type. rewrite S.
    destruct (Z.leb_spec (h0 - l0) (ct_max c)) as [M|M]; [|rewrite andb_false_r; reflexivity].
    rewrite (proj2 (Z.leb_le (ct_min c) _)) by lia. cbn [andb obind]. rewrite (proj2 (Z.leb_gt _ (ct_max c))) by lia. rewrite andb_false_r. reflexivity. }
  assert (T: forall l h, nonempty_aux l h -> m_flatten_c_tail c l h = UB \/ exists x, m_flatten_c_tail c l h = Ok (Some x)).
  { induction l as [|l0 l IH]; intros [|h0 h] H; try (cbn in H; tauto); [right; eexists; reflexivity|].
    destruct H as [H1 H2]. cbn [m_flatten_c_tail]. destruct (IH _ H2) as [E|[[[u v] w] E]]; rewrite E; cbn [obind]; [left; reflexivity|].
    rewrite gtb_le by exact H1. rewrite Dv by exact H1. destruct (_ <=? _); [right; eexists; reflexivity|left; reflexivity]. }
  assert (U: forall l h j, nonempty_aux l h -> (j < length l)%nat -> nth j h 0 - nth j l 0 + 1 > ct_max c -> m_flatten_c_tail c l h = UB).
  { induction l as [|l0 l IH]; intros [|h0 h] j H Hj Xj; try (cbn in H; tauto); [cbn in Hj; lia|].
    destruct H as [H1 H2]. cbn [m_flatten_c_tail]. destruct j as [|j].
    - cbn [nth] in Xj. destruct (T _ _ H2) as [E|[[[u v] w] E]]; rewrite E; cbn [obind]; [reflexivity|].
      rewrite gtb_le by exact H1. rewrite Dv by exact H1. rewrite (proj2 (Z.leb_gt _ _)) by lia. reflexivity.
    - rewrite (IH h j H2); [reflexivity|cbn in Hj; lia|exact Xj]. }
  assert (G: forall l h u v ps j, nonempty_aux l h -> (j < length l)%nat -> nth j h 0 - nth j l 0 + 1 > ct_max c -> m_flatten_f_loop c u v ps l h = UB).
  { induction l as [|l0 l IH]; intros [|h0 h] u v ps j H Hj Xj; try (cbn in H; tauto); [cbn in Hj; lia|].
    destruct H as [H1 H2]. cbn [m_flatten_f_loop]. rewrite gtb_le by exact H1. rewrite Dv by exact H1. destruct j as [|j].
    - cbn [nth] in Xj. rewrite (proj2 (Z.leb_gt _ _)) by lia. reflexivity.
    - destruct (_ <=? _); [|reflexivity]. cbn [obind]. destruct l as [|l1 l]; [cbn in Hj; lia|]. apply (IH h _ _ _ j); [exact H2|cbn in Hj |- *; lia|exact Xj]. }
  destruct o; cbn [m_flatten]; [|eapply G; eassumption].
  unfold m_flatten_c. destruct (lo b) as [|l0 l], (hi b) as [|h0 h]; try (cbn in D; tauto); [cbn in Hi; lia|]. destruct D as [D1 D2]. destruct i as [|i].
  - cbn [nth] in X. destruct (T _ _ D2) as [E|[[[u v] w] E]]; rewrite E; cbn [obind]; [reflexivity|].
    rewrite gtb_le by exact D1. rewrite Dv by exact D1. rewrite (proj2 (Z.leb_gt _ _)) by lia. reflexivity.
  - rewrite (U l h i D2); [reflexivity|cbn in Hi; lia|exact X].
Qed.

(** The largest volume the launch of XPAY can process: 128 threads in each of 2^31 - 1 blocks. *)
Definition largest_launch : Z := 128 * (2 ^ 31 - 1).

Lemma collect_map_ok A (f : A -> outcome point) (g : A -> point) l : (forall a, In a l -> f a = Ok (g a)) -> collect (map f l) = Ok (map g l).
Proof.
  induction l as [|a l IH]; intros H; [reflexivity|]. cbn [map collect]. rewrite H by (left; reflexivity). cbn [obind].
  rewrite IH by (intros x Hx; apply H; right; exact Hx). reflexivity.
Qed.
Lemma m_num_blocks_small v : 0 <= v <= 2 ^ 63 -> m_num_blocks v = get_num_blocks_1d v.
Proof. intros H. unfold m_num_blocks, get_num_blocks_1d, size, THREADS_PER_BLOCK. rewrite Z.mod_small by lia. reflexivity. Qed.

(** The kernel visits each point of the piece exactly once, in this range ... *)
Theorem C81_kernel_visits_each_point_once : forall c b, machine_type c -> nonempty_box b -> (0 < length (lo b))%nat ->
  corners_in c b -> extents_fit c b -> volume b <= largest_launch ->
  exists ps, m_xpay_kernel_points c b = Ok ps /\ NoDup ps /\ forall p, In p ps <-> in_box b p.
Proof.
  intros c b Hc Hn Hl C F V. assert (Hw: wf_box b) by (apply nonempty_wf; exact Hn). unfold largest_launch in V.
  exists (xpay_kernel_points b). destruct (C47_xpay_kernel_touches_each_point_once b Hw Hl) as (_ & ND & I). split; [|split; assumption].
  destruct (C81_machine_flatten ROW_MAJOR Hc Hw Hl C F ltac:(lia)) as [E U]. cbn [flatten m_unflatten unflatten] in *.
  unfold m_xpay_kernel_points, xpay_kernel_points. rewrite E. cbn [obind]. 
  destruct (C35_flatten_unflatten ROW_MAJOR b Hw Hl) as (Ev & _). cbn [flatten] in Ev.
  destruct (flatten_c b) as [vol ps] eqn:Ef. cbn [fst snd] in *. subst vol.
  pose proof (proj2 (nonempty_box_aux b) (proj1 (nonempty_box_aux b) Hn)) as Hn'. apply nonempty_box_aux in Hn'. pose proof (nonempty_volume _ _ Hn') as P. fold (volume b) in P.
  destruct (C47_launch_covers_every_index (volume b) ltac:(lia)) as [Rb Cv].
  assert (La: launched (m_num_blocks (volume b)) = thread_ids (get_num_blocks_1d (volume b))).
  { rewrite m_num_blocks_small by lia. unfold launched, grid. unfold THREADS_PER_BLOCK in Rb. rewrite Z.mod_small by lia.
    rewrite !(proj2 (Z.leb_le _ _)) by lia. reflexivity. }
  rewrite La. apply collect_map_ok. intros k Hk. rewrite Cv in Hk. apply in_zrange in Hk. apply U. lia.
Qed.

(** ... a bigger piece is not touched at all, and nobody notices (the launch fails, XPAY returns normally), ... *)
Theorem C81_kernel_too_large : forall c b, machine_type c -> wf_box b -> (0 < length (lo b))%nat ->
  corners_in c b -> extents_fit c b -> largest_launch < volume b <= 128 * 2 ^ 32 -> m_xpay_kernel_points c b = Ok [].
Proof.
  intros c b Hc Hw Hl C F V. unfold largest_launch in V.
  destruct (C81_machine_flatten ROW_MAJOR Hc Hw Hl C F ltac:(lia)) as [E _]. unfold m_xpay_kernel_points. rewrite E. cbn [obind].
  destruct (C35_flatten_unflatten ROW_MAJOR b Hw Hl) as (Ev & _).
  destruct (flatten ROW_MAJOR b) as [vol ps]. cbn [fst] in Ev. subst vol.
  assert (L: launched (m_num_blocks (volume b)) = []); [|rewrite L; reflexivity].
  rewrite m_num_blocks_small by lia. destruct (C47_launch_covers_every_index (volume b) ltac:(lia)) as [Rb _]. unfold THREADS_PER_BLOCK in Rb.
  unfold launched, grid. set (n := get_num_blocks_1d (volume b)) in *. destruct (Z.eq_dec n (2 ^ 32)) as [-> |N]; [reflexivity|].
  rewrite Z.mod_small by lia. rewrite (proj2 (Z.leb_gt n _)) by lia. rewrite andb_false_r. reflexivity.
Qed.

(** ... and neither is a piece with [unsigned] coordinates one of whose sides takes all 2^32 values. *)
Theorem C81_unsigned_full_side : forall b, nonempty_box b -> corners_in c_unsigned b ->
  (exists i, (i < length (lo b))%nat /\ extent b i = 2 ^ 32) ->
  (forall o, exists ps, m_flatten c_unsigned o b = Ok (0, ps)) /\ m_xpay_kernel_points c_unsigned b = Ok [].
Proof.
  intros b D _ [i [Hi X]]. apply nonempty_box_aux in D. unfold extent in X.
  assert (Dv: forall l0 h0, m_diff c_unsigned l0 h0 = Ok ((h0 - l0 + 1) mod 2 ^ 32)).
  { intros l0 h0. unfold m_diff, coord_expr. cbn [is_signed c_unsigned width obind]. rewrite Z.add_mod_idemp_l by lia. f_equal. unfold size.
    apply Z.mod_small. pose proof (Z.mod_pos_bound (h0 - l0 + 1) (2 ^ 32) ltac:(lia)). lia. }
  assert (Z0: forall x, size (0 * x) = 0) by reflexivity.
  assert (Z1: forall x, size (x * 0) = 0) by (intros x; rewrite Z.mul_0_r; reflexivity).
  assert (T: forall l h, nonempty_aux l h -> exists u v w, m_flatten_c_tail c_unsigned l h = Ok (Some (u, v, w))).
  { induction l as [|l0 l IH]; intros [|h0 h] H; try (cbn in H; tauto); [do 3 eexists; reflexivity|].
    destruct H as [H1 H2]. cbn [m_flatten_c_tail]. destruct (IH _ H2) as (u & v & w & E). rewrite E. cbn [obind].
    rewrite gtb_le by exact H1. rewrite Dv. do 3 eexists. reflexivity. }
  assert (U: forall l h j, nonempty_aux l h -> (j < length l)%nat -> nth j h 0 - nth j l 0 + 1 = 2 ^ 32 ->
     exists u w, m_flatten_c_tail c_unsigned l h = Ok (Some (u, 0, w))).
  { induction l as [|l0 l IH]; intros [|h0 h] j H Hj Xj; try (cbn in H; tauto); [cbn in Hj; lia|].
    destruct H as [H1 H2]. cbn [m_flatten_c_tail]. destruct j as [|j].
    - cbn [nth] in Xj. destruct (T _ _ H2) as (u & v & w & E). rewrite E. cbn [obind].
      rewrite gtb_le by exact H1. rewrite Dv, Xj, Z.mod_same by lia. cbn [obind]. rewrite !Z1. do 2 eexists. reflexivity.
    - destruct (IH h j H2 ltac:(cbn in Hj; lia) Xj) as (u & w & E). rewrite E. cbn [obind]. rewrite gtb_le by exact H1. rewrite Dv. cbn [obind]. rewrite !Z0. do 2 eexists. reflexivity. }
  assert (G0: forall l h u ps, nonempty_aux l h -> exists w, m_flatten_f_loop c_unsigned u 0 ps l h = Ok (0, w)).
  { induction l as [|l0 l IH]; intros [|h0 h] u ps H; try (cbn in H; tauto); [eexists; reflexivity|].
    destruct H as [H1 H2]. cbn [m_flatten_f_loop]. rewrite gtb_le by exact H1. rewrite Dv. cbn [obind]. rewrite Z0. destruct l; [eexists; reflexivity|]. apply IH. exact H2. }
  assert (G: forall l h u v ps j, nonempty_aux l h -> (j < length l)%nat -> nth j h 0 - nth j l 0 + 1 = 2 ^ 32 ->
     exists w, m_flatten_f_loop c_unsigned u v ps l h = Ok (0, w)).
  { induction l as [|l0 l IH]; intros [|h0 h] u v ps j H Hj Xj; try (cbn in H; tauto); [cbn in Hj; lia|].
    destruct H as [H1 H2]. cbn [m_flatten_f_loop]. rewrite gtb_le by exact H1. rewrite Dv. destruct j as [|j].
    - cbn [nth] in Xj. rewrite Xj, Z.mod_same by lia. cbn [obind]. rewrite Z1. destruct l; [eexists; reflexivity|]. apply G0. exact H2.
    - cbn [obind]. destruct l as [|l1 l]; [cbn in Hj; lia|]. apply (IH h _ _ _ j); [exact H2|cbn in Hj |- *; lia|exact Xj]. }
  assert (R: exists ps, m_flatten_c c_unsigned b = Ok (0, ps)).
  { unfold m_flatten_c. destruct (lo b) as [|l0 l], (hi b) as [|h0 h]; try (cbn in D; tauto); [cbn in Hi; lia|]. destruct D as [D1 D2]. destruct i as [|i].
    - cbn [nth] in X. destruct (T _ _ D2) as (u & v & w & E). rewrite E. cbn [obind]. rewrite gtb_le by exact D1. rewrite Dv, X, Z.mod_same by lia.
      cbn [obind]. rewrite Z1. eexists. reflexivity.
    - destruct (U l h i D2 ltac:(cbn in Hi; lia) X) as (u & w & E). rewrite E. cbn [obind]. rewrite gtb_le by exact D1. rewrite Dv. cbn [obind]. rewrite Z0. eexists. reflexivity. }
  split.
  - intros o. destruct o; cbn [m_flatten]; [exact R|]. eapply G; eassumption.
  - destruct R as [ps E]. unfold m_xpay_kernel_points. cbn [m_flatten]. rewrite E. reflexivity.
Qed.

(** Concrete cases: a 1000 x 2000 x 3000 box of ints (6 * 10^9 points, more than 2^32) is fine; [0, 2^31 - 1] in ints is
    undefined; [0, 2^32 - 1] in unsigneds is silently skipped; a 2^19 x 2^19 box of ints is silently skipped. *)
Example C81_example :
  let b := mk_rect [0; -1000; 7] [999; 999; 3006] in
  (machine_type c_int /\ nonempty_box b /\ corners_in c_int b /\ extents_fit c_int b /\ volume b <= largest_launch) /\
  m_flatten c_int ROW_MAJOR b = Ok (6000000000, [6000000; 3000]) /\
  m_unflatten c_int ROW_MAJOR [6000000; 3000] 5999999999 (lo b) = Ok [999; 999; 3006] /\
  m_flatten c_int ROW_MAJOR (mk_rect [0] [2 ^ 31 - 1]) = UB /\
  m_xpay_kernel_points c_unsigned (mk_rect [0] [2 ^ 32 - 1]) = Ok [] /\
  m_xpay_kernel_points c_int (mk_rect [0; 0] [2 ^ 19 - 1; 2 ^ 19 - 1]) = Ok [].
Proof.
  assert (I: forall (n : nat) (P : nat -> Prop), (forall i, In i (seq 0 n) -> P i) -> forall i, (i < n)%nat -> P i) by (intros n P H i Hi; apply H, in_seq; lia).
  split.
  { split; [unfold machine_type; cbn; lia|]. split; [split; [reflexivity|]|split; [|split]].
    - apply (I 3%nat). cbn. intuition (subst; cbn; lia).
    - unfold corners_in. apply (I 3%nat). cbn. intuition (subst; cbn; lia).
    - unfold extents_fit. apply (I 3%nat). cbn. intuition (subst; cbn; lia).
    - vm_compute. discriminate. }
  split; [vm_compute; reflexivity|]. split; [vm_compute; reflexivity|]. split; [vm_compute; reflexivity|]. split; vm_compute; reflexivity.
Qed.
