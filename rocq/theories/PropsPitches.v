(** PropsPitches: C35, C47 - flatten/unflatten and the coverage of GPU kernel launches. *)
From Verif Require Import Base Index IndexSpec IndexFacts Pitches.
Local Open Scope Z_scope.

Fixpoint suffix (l h : point) : list Z :=
  match l, h with
  | l0 :: l', h0 :: h' => volume_aux l h :: suffix l' h'
  | _, _ => []
  end.
Lemma volume_cons l0 l h0 h : l0 <= h0 -> volume_aux (l0 :: l) (h0 :: h) = volume_aux l h * (h0 - l0 + 1).
Proof. intros H. cbn [volume_aux]. rewrite (proj2 (Z.ltb_ge _ _)) by lia. ring. Qed.
Lemma gtb_le a b : a <= b -> (a >? b) = false.
Proof. intros H. rewrite Z.gtb_ltb. apply Z.ltb_ge. exact H. Qed.

Lemma flatten_c_tail_spec l h : nonempty_aux l h ->
  flatten_c_tail l h = Some (volume_aux l h, volume_aux l h, suffix l h).
Proof.
  revert h. induction l as [|l0 l IH]; intros [|h0 h]; try (cbn; tauto).
  - intros [H1 H2]. cbn [flatten_c_tail suffix]. rewrite (IH h H2), gtb_le by exact H1.
    rewrite volume_cons by exact H1. reflexivity.
Qed.
Lemma flatten_c_tail_empty l h : length l = length h -> ~ nonempty_aux l h -> flatten_c_tail l h = None.
Proof.
  revert h. induction l as [|l0 l IH]; intros [|h0 h] Hl H; try discriminate Hl; try (cbn in H; tauto).
  cbn [flatten_c_tail]. destruct (flatten_c_tail l h) as [[[pi vo] ps]|] eqn:E; [|reflexivity].
  destruct (Z.gtb_spec l0 h0) as [G|G]; [reflexivity|]. exfalso. apply H. split; [lia|].
  destruct (nonempty_box_dec (mk_rect l h)) as [D|D]; [apply nonempty_box_aux in D; exact D|].
  rewrite IH in E; [discriminate| cbn in Hl; lia|]. intros N. apply D. apply nonempty_box_aux. exact N.
Qed.

Definition sfx (l h : point) : list Z := suffix (tl l) (tl h).
Lemma flatten_c_spec b : (0 < length (lo b))%nat -> nonempty_box b -> flatten_c b = (volume b, sfx (lo b) (hi b)).
Proof.
  intros Hl H. apply nonempty_box_aux in H. unfold flatten_c, volume, sfx.
  destruct (lo b) as [|l0 l], (hi b) as [|h0 h]; try (cbn in H; tauto); try (cbn in Hl; lia).
  destruct H as [H1 H2]. rewrite (flatten_c_tail_spec _ _ H2), gtb_le by exact H1. rewrite volume_cons by exact H1.
  reflexivity.
Qed.

(** unflatten_c inverts the row-major linear index *)
Lemma unflatten_c_linearize p : forall l h, (0 < length l)%nat -> contains_aux l h p = true ->
  unflatten_c (sfx l h) (fst (linearize_row_major_aux p l h)) l = p.
Proof.
  induction p as [|x p IH]; intros [|l0 l] [|h0 h] Hl H; try discriminate H; [cbn in Hl; lia|].
  cbn [contains_aux] in H. apply andb_true_iff in H. destruct H as [H Hp]. apply andb_true_iff in H. destruct H as [H1 H2].
  pose proof (contains_aux_length _ _ _ Hp) as [L1 L2]. pose proof (contains_nonempty _ _ _ Hp) as Hn.
  rewrite linearize_rm_cons by assumption. unfold sfx. cbn [tl].
  destruct l as [|l1 l].
  - destruct h; [|discriminate]. destruct p; [|discriminate]. cbn. f_equal. lia.
  - destruct h as [|h1 h]; [discriminate|]. cbn [suffix unflatten_c].
    pose proof (nonempty_volume _ _ Hn) as Hv.
    assert (R: 0 <= fst (linearize_row_major_aux p (l1 :: l) (h1 :: h)) < volume_aux (l1 :: l) (h1 :: h)).
    { apply (linearize_range ROW_MAJOR (mk_rect (l1 :: l) (h1 :: h)) p). apply contains_iff. exact Hp. }
    set (V := volume_aux (l1 :: l) (h1 :: h)) in *.
    set (r := fst (linearize_row_major_aux p (l1 :: l) (h1 :: h))) in *.
    assert (Ed: ((x - l0) * V + r) / V = x - l0) by (rewrite Z.add_comm, Z.div_add by lia; rewrite Z.div_small by lia; lia).
    assert (Em: ((x - l0) * V + r) mod V = r) by (rewrite Z.add_comm, Z.mod_add by lia; apply Z.mod_small; lia).
    rewrite Ed, Em. f_equal; [lia|]. apply (IH (l1 :: l) (h1 :: h)); [cbn; lia|exact Hp].
Qed.

(** the Fortran-order pitches are the C-order pitches of the reversed box, reversed *)
Fixpoint prefix (a : Z) (l h : point) : list Z :=
  match l, h with
  | l0 :: l', h0 :: h' =>
      match l' with [] => [] | _ => a * (h0 - l0 + 1) :: prefix (a * (h0 - l0 + 1)) l' h' end
  | _, _ => []
  end.
Lemma flatten_f_loop_spec l : forall h a ps, (0 < length l)%nat -> nonempty_aux l h ->
  flatten_f_loop a a ps l h = (a * volume_aux l h, ps ++ prefix a l h).
Proof.
  induction l as [|l0 l IH]; intros [|h0 h] a ps Hl H; try (cbn in H; tauto); try (cbn in Hl; lia).
  destruct H as [H1 H2]. cbn [flatten_f_loop prefix]. rewrite gtb_le by exact H1. rewrite volume_cons by exact H1.
  destruct l as [|l1 l].
  - destruct h; [|cbn in H2; tauto]. cbn [volume_aux]. rewrite app_nil_r. f_equal. ring.
  - rewrite IH; [|cbn; lia|exact H2]. rewrite <- app_assoc. cbn [app]. f_equal. ring.
Qed.
Lemma prefix_snoc l : forall h a x y, (0 < length l)%nat -> nonempty_aux l h ->
  prefix a (l ++ [x]) (h ++ [y]) = prefix a l h ++ [a * volume_aux l h].
Proof.
  induction l as [|l0 l IH]; intros [|h0 h] a x y Hl H; try (cbn in H; tauto); try (cbn in Hl; lia).
  destruct H as [H1 H2]. rewrite volume_cons by exact H1. destruct l as [|l1 l].
  - destruct h; [|cbn in H2; tauto]. cbn [app prefix volume_aux]. f_equal. ring.
  - change (prefix a ((l0 :: l1 :: l) ++ [x]) ((h0 :: h) ++ [y]))
      with (a * (h0 - l0 + 1) :: prefix (a * (h0 - l0 + 1)) ((l1 :: l) ++ [x]) (h ++ [y])).
    change (prefix a (l0 :: l1 :: l) (h0 :: h)) with (a * (h0 - l0 + 1) :: prefix (a * (h0 - l0 + 1)) (l1 :: l) h).
    rewrite IH; [|cbn; lia|exact H2].
    cbn [app]. f_equal. f_equal. f_equal. ring.
Qed.
Lemma prefix_sfx l : forall h, (0 < length l)%nat -> nonempty_aux l h -> rev (prefix 1 l h) = sfx (rev l) (rev h).
Proof.
  induction l as [|x l IH] using rev_ind; intros h Hl H; [cbn in Hl; lia|].
  assert (Hlen: length (l ++ [x]) = length h) by (apply nonempty_aux_iff in H; tauto).
  destruct h as [|y h _] using rev_ind; [rewrite app_length in Hlen; cbn in Hlen; lia|].
  rewrite !app_length in Hlen. cbn in Hlen.
  assert (H': nonempty_aux l h).
  { apply nonempty_aux_iff. apply nonempty_aux_iff in H. destruct H as [_ H]. split; [lia|]. intros i Hi.
    specialize (H i ltac:(rewrite app_length; cbn; lia)). rewrite !app_nth1 in H by lia. exact H. }
  destruct l as [|l0 l].
  - destruct h; [|cbn in Hlen; lia]. reflexivity.
  - rewrite prefix_snoc; [|cbn; lia|exact H']. rewrite !rev_app_distr. unfold sfx. cbn [rev app tl].
    rewrite Z.mul_1_l. rewrite IH; [|cbn; lia|exact H']. unfold sfx.
    change (rev l ++ [l0]) with (rev (l0 :: l)). 
    destruct h as [|h0 h]; [cbn in Hlen; lia|]. change (rev h ++ [h0]) with (rev (h0 :: h)).
    assert (Hl': length (l0 :: l) = length (h0 :: h)) by (apply nonempty_aux_iff in H'; tauto).
    rewrite <- (volume_aux_rev (l0 :: l)) by exact Hl'.
    destruct (rev (l0 :: l)) as [|u us] eqn:Eu; [apply (f_equal (@length Z)) in Eu; rewrite rev_length in Eu; discriminate|].
    destruct (rev (h0 :: h)) as [|w ws] eqn:Ew; [apply (f_equal (@length Z)) in Ew; rewrite rev_length in Ew; discriminate|].
    cbn [tl suffix]. reflexivity.
Qed.
Lemma flatten_f_spec b : (0 < length (lo b))%nat -> nonempty_box b ->
  flatten_f b = (volume b, rev (sfx (rev (lo b)) (rev (hi b)))).
Proof.
  intros Hl H. apply nonempty_box_aux in H. unfold flatten_f. rewrite flatten_f_loop_spec by assumption.
  rewrite Z.mul_1_l. cbn [app]. rewrite <- prefix_sfx by assumption. rewrite rev_involutive. reflexivity.
Qed.

Lemma unflatten_linearize o b p : (0 < length (lo b))%nat -> in_box b p ->
  unflatten o (snd (flatten o b)) (linearize o b p) (lo b) = p.
Proof.
  intros Hl Hp. pose proof (in_box_nonempty _ _ Hp) as Hn. pose proof Hp as Hc. apply contains_iff in Hc. destruct o; cbn [unflatten flatten linearize].
  - rewrite flatten_c_spec by assumption. cbn [snd]. apply unflatten_c_linearize; assumption.
  - rewrite flatten_f_spec by assumption. cbn [snd]. unfold unflatten_f. rewrite rev_involutive.
    unfold contains in Hc. pose proof (contains_aux_length _ _ _ Hc) as [L1 L2].
    unfold linearize_column_major. rewrite linearize_cm_acc by lia. rewrite Z.mul_1_l, Z.add_0_l.
    rewrite unflatten_c_linearize; [apply rev_involutive|rewrite rev_length; exact Hl|rewrite contains_aux_rev; exact Hc].
Qed.

Lemma flatten_empty o b : (0 < length (lo b))%nat -> wf_box b -> ~ nonempty_box b -> fst (flatten o b) = 0.
Proof.
  intros Hl Hw H. assert (H': ~ nonempty_aux (lo b) (hi b)) by (intros N; apply H, nonempty_box_aux, N).
  unfold wf_box in Hw. destruct o; cbn [flatten].
  - unfold flatten_c. destruct (lo b) as [|l0 l], (hi b) as [|h0 h]; try discriminate Hw; [cbn in Hl; lia|].
    destruct (flatten_c_tail l h) as [[[pi vo] ps]|] eqn:E; [|reflexivity].
    destruct (Z.gtb_spec l0 h0) as [G|G]; [reflexivity|]. exfalso. apply H'. split; [lia|].
    destruct (nonempty_box_dec (mk_rect l h)) as [D|D]; [apply nonempty_box_aux in D; exact D|].
    rewrite flatten_c_tail_empty in E; [discriminate|cbn in Hw; lia|]. intros N. apply D. apply nonempty_box_aux. exact N.
  - unfold flatten_f. generalize 1 at 2 as a. generalize 1 as c. generalize (@nil Z) as ps.
    revert Hl Hw H'. generalize (hi b) as h. generalize (lo b) as l.
    induction l as [|l0 l IH]; intros [|h0 h] Hl Hw H' ps c a; try discriminate Hw; [cbn in Hl; lia|].
    cbn [flatten_f_loop]. destruct (Z.gtb_spec l0 h0) as [G|G]; [reflexivity|].
    destruct l as [|l1 l].
    + exfalso. destruct h; [|discriminate Hw]. apply H'. cbn. lia.
    + apply IH; [cbn; lia|cbn in Hw |- *; lia|]. intros N. apply H'. split; [lia|exact N].
Qed.

(** C35.  For every box of any dimension >= 1 and both orders: flatten returns the number of points (0 when empty);
    unflatten sends 0, 1, ..., volume-1 to the points of the box, each once, in row-major resp. column-major
    order; and it is the two-sided inverse of the linear index. *)
Theorem C35_flatten_unflatten : forall o b, wf_box b -> (0 < length (lo b))%nat ->
  fst (flatten o b) = volume b /\
  map (fun k => unflatten o (snd (flatten o b)) k (lo b)) (zrange 0 (volume b - 1)) = box_points o b /\
  (forall p, in_box b p -> unflatten o (snd (flatten o b)) (linearize o b p) (lo b) = p) /\
  (forall k, 0 <= k < volume b ->
     in_box b (unflatten o (snd (flatten o b)) k (lo b)) /\
     linearize o b (unflatten o (snd (flatten o b)) k (lo b)) = k).
Proof.
  intros o b Hw Hl. destruct (nonempty_box_dec b) as [Hn|Hn].
  - split; [destruct o; cbn [flatten]; [rewrite flatten_c_spec by assumption|rewrite flatten_f_spec by assumption]; reflexivity|].
    split.
    { rewrite <- (map_linearize o) by exact Hn. rewrite map_map. rewrite <- (map_id (box_points o b)) at 2.
      apply map_ext_in. intros p Hp. apply in_box_points in Hp; [|exact Hw]. apply unflatten_linearize; assumption. }
    split; [intros p Hp; apply unflatten_linearize; assumption|].
    intros k Hk. destruct (linearize_surj o b k Hn Hk) as [p [Hp E]]. rewrite <- E.
    rewrite unflatten_linearize by assumption. auto.
  - pose proof (box_points_length o b Hw) as BL. rewrite (empty_box_points o b Hw Hn) in BL. cbn in BL.
    split; [rewrite flatten_empty by assumption; lia|].
    split; [rewrite (empty_box_points o b Hw Hn), zrange_nil by lia; reflexivity|].
    split; [|intros k Hk; lia]. intros p Hp. exfalso. apply Hn. exact (in_box_nonempty _ _ Hp).
Qed.

(** ------------------------------------------------------------------ C47 *)
Lemma thread_ids_range blocks : 0 <= blocks -> thread_ids blocks = zrange 0 (blocks * THREADS_PER_BLOCK - 1).
Proof.
  intros H. unfold thread_ids. rewrite <- (Z2Nat.id blocks H). generalize (Z.to_nat blocks) as n. clear.
  induction n as [|n IH].
  - reflexivity.
  - rewrite Nat2Z.inj_succ. unfold Z.succ.
    rewrite (zrange_app (a := 0) (b := Z.of_nat n - 1) (c := Z.of_nat n + 1 - 1)) by lia. rewrite flat_map_app, IH.
    replace (Z.of_nat n - 1 + 1) with (Z.of_nat n) by lia. replace (Z.of_nat n + 1 - 1) with (Z.of_nat n) by lia.
    rewrite (zrange_cons (a := Z.of_nat n)) by lia. rewrite (zrange_nil (a := Z.of_nat n + 1)) by lia.
    cbn [flat_map]. rewrite app_nil_r.
    rewrite (zrange_app (a := 0) (b := Z.of_nat n * THREADS_PER_BLOCK - 1) (c := (Z.of_nat n + 1) * THREADS_PER_BLOCK - 1))
      by (unfold THREADS_PER_BLOCK; lia).
    f_equal. unfold zrange. rewrite map_map.
    replace (Z.to_nat ((Z.of_nat n + 1) * THREADS_PER_BLOCK - 1 - (Z.of_nat n * THREADS_PER_BLOCK - 1 + 1) + 1))
      with (Z.to_nat (THREADS_PER_BLOCK - 1 - 0 + 1)) by (unfold THREADS_PER_BLOCK; lia).
    apply map_ext. intros i. lia.
Qed.
Lemma filter_zrange_lt n m : 0 <= n <= m -> filter (fun i => negb (i >=? n)) (zrange 0 (m - 1)) = zrange 0 (n - 1).
Proof.
  intros H. rewrite (zrange_app (a := 0) (b := n - 1) (c := m - 1)) by lia. rewrite filter_app.
  assert (A: forall l, (forall i, In i l -> i < n) -> filter (fun i => negb (i >=? n)) l = l).
  { induction l as [|i l IH]; intros Hl; [reflexivity|]. cbn [filter]. rewrite Z.geb_leb.
    rewrite (proj2 (Z.leb_gt _ _)) by (apply Hl; left; reflexivity). cbn [negb]. f_equal. apply IH. intros j Hj. apply Hl. right. exact Hj. }
  assert (B: forall l, (forall i, In i l -> n <= i) -> filter (fun i => negb (i >=? n)) l = []).
  { induction l as [|i l IH]; intros Hl; [reflexivity|]. cbn [filter]. rewrite Z.geb_leb.
    rewrite (proj2 (Z.leb_le _ _)) by (apply Hl; left; reflexivity). cbn [negb]. apply IH. intros j Hj. apply Hl. right. exact Hj. }
  rewrite A, B; [apply app_nil_r| |]; intros i Hi; apply in_zrange in Hi; lia.
Qed.

(** C47: the launch asks for the least number of blocks covering [n] indices; the threads are numbered 0 .. blocks*128-1
    without repetition; with the bound check in the kernel each index 0 .. n-1 is processed exactly once. *)
Theorem C47_launch_covers_every_index : forall n, 0 <= n ->
  n <= get_num_blocks_1d n * THREADS_PER_BLOCK < n + THREADS_PER_BLOCK /\
  filter (fun idx => negb (idx >=? n)) (thread_ids (get_num_blocks_1d n)) = zrange 0 (n - 1).
Proof.
  intros n Hn. assert (R: n <= get_num_blocks_1d n * THREADS_PER_BLOCK < n + THREADS_PER_BLOCK).
  { unfold get_num_blocks_1d, THREADS_PER_BLOCK.
    pose proof (Z.mul_div_le (n + 128 - 1) 128 ltac:(lia)). pose proof (Z.mul_succ_div_gt (n + 128 - 1) 128 ltac:(lia)). lia. }
  split; [exact R|]. rewrite thread_ids_range by (unfold get_num_blocks_1d, THREADS_PER_BLOCK; apply Z.div_pos; lia).
  apply filter_zrange_lt. lia.
Qed.

(** ... so the GPU XPAY kernel updates every point of the piece exactly once and no other point. *)
Theorem C47_xpay_kernel_touches_each_point_once : forall b, wf_box b -> (0 < length (lo b))%nat ->
  xpay_kernel_points b = box_points ROW_MAJOR b /\
  NoDup (xpay_kernel_points b) /\ (forall p, In p (xpay_kernel_points b) <-> in_box b p).
Proof.
  intros b Hw Hl. assert (E: xpay_kernel_points b = box_points ROW_MAJOR b).
  { unfold xpay_kernel_points. destruct (C35_flatten_unflatten ROW_MAJOR b Hw Hl) as (Ev & Em & _).
    cbn [flatten unflatten] in *. destruct (flatten_c b) as [vol ps]. cbn [fst snd] in *. subst vol.
    rewrite (proj2 (C47_launch_covers_every_index (volume b) (volume_aux_nonneg _ _))). exact Em. }
  rewrite E. split; [reflexivity|]. split; [apply NoDup_box_points|]. intros p. apply in_box_points. exact Hw.
Qed.

Example C35_example :
  let b := mk_rect [1; 2; 0] [2; 4; 1] in
  wf_box b /\ flatten ROW_MAJOR b = (12, [6; 2]) /\ unflatten ROW_MAJOR [6; 2] 9 (lo b) = [2; 3; 1] /\
  flatten COLUMN_MAJOR b = (12, [2; 6]) /\ unflatten COLUMN_MAJOR [2; 6] 9 (lo b) = [2; 3; 1] /\
  length (xpay_kernel_points b) = 12%nat.
Proof. repeat split. Qed.
