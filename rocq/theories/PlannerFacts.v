(** PlannerFacts: what each SquarePlanner operation does to the store, for a planner whose set-up is complete. *)
From Verif Require Import Base Index Outcome Sched Async Arith Launch Vector VectorFacts LaunchFacts Matrix MatrixSpec MatrixFacts
  MatvecFacts Builder BuilderFacts Planner.
Set Implicit Arguments.

Definition dummy_vec : pvec := mk_pvec 0 0 0 0 0.
(** component [i] of planner vector [vi] *)
Definition vec {T} (pl : planner T) (vi i : nat) : pvec :=
  match get_vector pl vi i with Ok v => v | _ => dummy_vec end.

(** A planner with [n] component spaces and vectors 0 .. nv-1 (solution, right-hand side, workspace), ready to
    compute: every vector was constructed on the canonical space and partition of its component, no two vectors
    share storage, and every added matrix carries the partitions derived from the canonical ones. *)
Record ready {T} (lg : legion) (pl : planner T) (n nv : nat) : Prop := mk_ready {
  rd_num : get_num_spaces pl = Ok n;
  rd_rows : forall vi, vi < nv -> exists vs, vector_row pl vi = Ok vs /\ length vs = n;
  rd_constructed : forall vi i, vi < nv -> i < n -> constructed lg (vec pl vi i);
  rd_layout : forall vi i, vi < nv -> i < n ->
    pv_space (vec pl vi i) = nth i (pl_spaces pl) 0 /\ pv_part (vec pl vi i) = nth i (pl_parts pl) 0;
  rd_distinct : forall vi i vj j, vi < nv -> i < n -> vj < nv -> j < n ->
    pv_region (vec pl vi i) = pv_region (vec pl vj j) -> pv_fid (vec pl vi i) = pv_fid (vec pl vj j) -> vi = vj /\ i = j;
  rd_mats : forall pm, In pm (pl_mats pl) ->
    matrix_ok lg (pm_matrix pm) /\ pm_domain pm < n /\ pm_range pm < n /\
    kernel_from_range lg (pm_matrix pm) (nth (pm_range pm) (pl_parts pl) 0) = Ok (pm_kernel pm) /\
    pm_ghost pm = domain_from_kernel lg (pm_matrix pm) (nth (pm_domain pm) (pl_spaces pl) 0) (pm_kernel pm) }.

Lemma constructed_colors lg v : constructed lg v -> pv_colors v = part_colors lg (pv_part v).
Proof.
  intros [q [r [f H]]]. unfold make_vector, oassert in H. destruct (is_disjoint lg q); [|discriminate].
  destruct (is_complete lg q); [|discriminate]. injection H as <-. reflexivity.
Qed.

Section Facts.
Variable T : Type.
Variable A : arith T.
Variable lg : legion.
Hypothesis Hlg : legion_ok lg.
Variable reduction : nat -> list T -> T.
Variable pl : planner T.
Variables n nv : nat.
Hypothesis Hrd : ready lg pl n nv.
Notation store := (store loc T).

(** the points of component [i]; the storage of planner vector [vi] *)
Definition pts (i : nat) : list point := is_points lg (nth i (pl_spaces pl) 0).
Definition cell (vi i : nat) (p : point) : loc := at_point (vec pl vi i) p.
Definition in_vector (vi : nat) (l : loc) : Prop := exists i p, i < n /\ In p (pts i) /\ l = cell vi i p.
(** [s'] differs from [s] only in vector [vi], which now holds [g] *)
Definition updates (vi : nat) (g : nat -> point -> T) (s s' : store) : Prop :=
  (forall i p, i < n -> In p (pts i) -> s' (cell vi i p) = g i p) /\
  (forall l, ~ in_vector vi l -> s' l = s l).

Lemma get_vector_vec vi i : vi < nv -> i < n -> get_vector pl vi i = Ok (vec pl vi i).
Proof.
  intros Hv Hi. unfold vec. destruct (rd_rows Hrd Hv) as [vs [E L]]. unfold get_vector. rewrite E. cbn [obind].
  destruct (nth_error vs i) as [v|] eqn:En; [reflexivity|]. apply nth_error_None in En. lia.
Qed.
Lemma vec_space vi i : vi < nv -> i < n -> is_points lg (pv_space (vec pl vi i)) = pts i.
Proof. intros Hv Hi. unfold pts. destruct (rd_layout Hrd Hv Hi) as [-> _]. reflexivity. Qed.
Lemma vec_same_layout vi vj i : vi < nv -> vj < nv -> i < n -> same_layout (vec pl vi i) (vec pl vj i) = true.
Proof.
  intros Hi Hj Hn. unfold same_layout. destruct (rd_layout Hrd Hi Hn) as [-> E1]. destruct (rd_layout Hrd Hj Hn) as [-> E2].
  rewrite (constructed_colors (rd_constructed Hrd Hi Hn)), (constructed_colors (rd_constructed Hrd Hj Hn)), E1, E2, !Nat.eqb_refl.
  reflexivity.
Qed.
Lemma cell_inj vi i p vj j q : vi < nv -> i < n -> vj < nv -> j < n -> cell vi i p = cell vj j q -> vi = vj /\ i = j /\ p = q.
Proof.
  intros H1 H2 H3 H4 E. unfold cell, at_point in E. injection E as E1 E2 E3.
  destruct (rd_distinct Hrd H1 H2 H3 H4 E1 E2) as [-> ->]. auto.
Qed.
Lemma other_cell vi vj i p : vi < nv -> vj < nv -> vi <> vj -> i < n -> ~ in_vector vi (cell vj i p).
Proof. intros H1 H2 Hne Hi [j [q [Hj [_ E]]]]. apply cell_inj in E; auto. destruct E as [E _]. congruence. Qed.
Lemma fut_not_in vi k : ~ in_vector vi (LFut k).
Proof. intros [i [p [_ [_ E]]]]. discriminate. Qed.
Lemma part_not_in vi k c : ~ in_vector vi (LPart k c).
Proof. intros [i [p [_ [_ E]]]]. discriminate. Qed.

(** a loop over the components *)
Lemma wp_components (body : nat -> M T unit) vi (g : store -> nat -> point -> T) : vi < nv ->
  (forall i st s, i < n -> exists ln, body i st = Ok (tt, [ln], st) /\ good_launch ln /\
      updates_vector lg (vec pl vi i) (fun p => g s i p) s (effect [ln] s)) ->
  (forall i s s1, i < n -> (forall l, (forall j p, j < n -> j <> i -> l <> cell vi j p) -> s1 l = s l) ->
      forall p, In p (pts i) -> g s1 i p = g s i p) ->
  forall (Q : unit -> ist -> store -> Prop) st s, (forall s', updates vi (g s) s s' -> Q tt st s') ->
  wp (for_spaces pl body) Q st s.
Proof.
  intros Hv Hbody Hg Q st s HQ. unfold for_spaces. apply wp_bind. eapply wp_lift; [apply (rd_num Hrd)|].
  set (I := fun (done : list nat) (st1 : ist) (s1 : store) => st1 = st /\
     (forall i p, In i done -> In p (pts i) -> s1 (cell vi i p) = g s i p) /\
     (forall l, (forall i p, In i done -> In p (pts i) -> l <> cell vi i p) -> s1 l = s l)).
  eapply wp_conseq; [apply (@wp_mfor T nat body I (seq 0 n))|].
  - intros done i rest st1 s1 E [-> [H1 H2]].
    assert (Hi : i < n /\ ~ In i done).
    { assert (Hin : In i (seq 0 n)) by (rewrite E; apply in_or_app; right; left; reflexivity).
      apply in_seq in Hin. split; [lia|]. assert (Hn := seq_NoDup n 0). rewrite E in Hn.
      apply NoDup_remove_2 in Hn. intros Hd. apply Hn. apply in_or_app. left; exact Hd. }
    assert (Hdone : forall j, In j done -> j < n).
    { intros j Hj. assert (Hin : In j (seq 0 n)) by (rewrite E; apply in_or_app; left; exact Hj). apply in_seq in Hin. lia. }
    destruct Hi as [Hi Hnd]. destruct (Hbody i st s1 Hi) as [ln [B1 [B2 [B3 B4]]]].
    exists tt, [ln], st. split; [exact B1|]. split; [constructor; [exact B2|constructor]|].
    rewrite (vec_space Hv Hi) in B3, B4.
    split; [reflexivity|]. split.
    + intros j p Hj Hp. apply in_app_or in Hj. destruct Hj as [Hj|[<-|[]]].
      * rewrite B4; [apply H1; assumption|]. intros q Hq Eq. apply cell_inj in Eq; auto. destruct Eq as [_ [-> _]]. contradiction.
      * unfold cell. rewrite (B3 p Hp). apply Hg; [exact Hi| |exact Hp]. intros l Hl. apply H2. intros k q Hk Hq. apply Hl; [apply Hdone; exact Hk|]. intros ->. contradiction.
    + intros l Hl. rewrite B4.
      * apply H2. intros j p Hj Hp. apply Hl; [apply in_or_app; left; exact Hj|exact Hp].
      * intros p Hp. apply Hl; [apply in_or_app; right; left; reflexivity|exact Hp].
  - split; [reflexivity|]. split; [intros i p []|reflexivity].
  - intros [] st1 s1 [-> [H1 H2]]. apply HQ. split.
    + intros i p Hi Hp. apply H1; [apply in_seq; lia|exact Hp].
    + intros l Hl. apply H2. intros i p Hi Hp E. apply Hl. exists i, p. apply in_seq in Hi. split; [lia|split; [exact Hp|exact E]].
Qed.

Lemma at_neq vi vj i : vi < nv -> vj < nv -> i < n -> vi <> vj ->
  pv_region (vec pl vi i) <> pv_region (vec pl vj i) \/ pv_fid (vec pl vi i) <> pv_fid (vec pl vj i).
Proof.
  intros H1 H2 Hi Hne. destruct (Nat.eq_dec (pv_region (vec pl vi i)) (pv_region (vec pl vj i))) as [E|E]; [|left; exact E].
  right. intros E2. apply Hne. apply (rd_distinct Hrd H1 Hi H2 Hi E E2).
Qed.
Lemma not_interfering2 vi vj i p1 p2 P1 P2 : vi < nv -> vj < nv -> i < n -> vi <> vj ->
  interfering [mk_req (pv_region (vec pl vi i)) (pv_fid (vec pl vi i)) P1 p1; mk_req (pv_region (vec pl vj i)) (pv_fid (vec pl vj i)) P2 p2] = false.
Proof.
  intros H1 H2 Hi Hne. cbn. unfold reqs_alias. cbn. destruct (at_neq H1 H2 Hi Hne) as [E|E]; apply Nat.eqb_neq in E; rewrite E.
  - reflexivity.
  - rewrite andb_false_r. reflexivity.
Qed.

(** ** zero_fill *)
Lemma wp_zero_fill vi : vi < nv -> forall (Q : unit -> ist -> store -> Prop) st s,
  (forall s', updates vi (fun _ _ => a0 A) s s' -> Q tt st s') -> wp (pl_zero_fill A lg pl vi) Q st s.
Proof.
  intros Hv Q st s HQ. unfold pl_zero_fill. destruct (rd_rows Hrd Hv) as [vs [E L]]. apply wp_bind. eapply wp_lift; [exact E|].
  assert (Evs : vs = map (vec pl vi) (seq 0 n)).
  { apply list_eq_nth_error. intros i. rewrite nth_error_map_some. destruct (Nat.lt_ge_cases i n) as [Hi|Hi].
    - rewrite (@nth_error_nth' nat (seq 0 n) i 0) by (rewrite seq_length; exact Hi). rewrite seq_nth by exact Hi. cbn.
      assert (G := get_vector_vec Hv Hi). unfold get_vector in G. rewrite E in G. cbn [obind] in G.
      destruct (nth_error vs i) as [v|]; [injection G as G; f_equal; exact G|discriminate].
    - rewrite (proj2 (nth_error_None vs i)) by lia. rewrite (proj2 (nth_error_None (seq 0 n) i)) by (rewrite seq_length; lia). reflexivity. }
  rewrite Evs.
  assert (W : wp (for_spaces pl (fun i => issue (zero_fill A lg (vec pl vi i)))) Q st s).
  { apply (@wp_components _ vi (fun _ _ _ => a0 A) Hv).
    - intros i st1 s1 Hi. unfold zero_fill, constant_fill, submit. cbn [ln_reqs interfering existsb get_requirement orb].
      eexists. split; [reflexivity|]. split.
      + apply (@fill_good T lg Hlg (vec pl vi i) (a0 A)); [apply (rd_constructed Hrd Hv Hi)|reflexivity].
      + rewrite effect_one. apply (@fill_effect T lg Hlg (vec pl vi i) (a0 A)) with (ln := mk_launch (pointwise lg (vec pl vi i) (fill_step (vec pl vi i) (a0 A))) [get_requirement lg (vec pl vi i) WRITE_DISCARD] [] None [] []).
        * apply (rd_constructed Hrd Hv Hi).
        * reflexivity.
        * apply interleave_concat.
    - reflexivity.
    - exact HQ. }
  unfold for_spaces in W.
  assert (G : forall l st1 s1, wp (mfor l (fun i => issue (zero_fill A lg (vec pl vi i)))) Q st1 s1 ->
      wp (mfor (map (vec pl vi) l) (fun v => issue (zero_fill A lg v))) Q st1 s1).
  { assert (Eq : forall l, mfor (map (vec pl vi) l) (fun v => issue (zero_fill A lg v)) = mfor l (fun i => issue (zero_fill A lg (vec pl vi i)))).
    { induction l as [|a l IH]; cbn [map mfor]; [reflexivity|]. rewrite IH. reflexivity. }
    intros l st1 s1. rewrite Eq. auto. }
  apply G. destruct W as [x [lns [st' [W1 [W2 W3]]]]]. unfold bind, lift in W1. rewrite (rd_num Hrd) in W1. cbn [obind] in W1.
  destruct (mfor (seq 0 n) (fun i => issue (zero_fill A lg (vec pl vi i))) st) as [[[y l2] st2]| | |] eqn:Em; try discriminate.
  cbn [obind app] in W1. injection W1 as -> -> ->. exists x, lns, st'. split; [exact Em|split; assumption].
Qed.

(** ** copy, scal, axpy, xpay *)
Lemma wp_copy vi vj : vi < nv -> vj < nv -> vi <> vj -> forall (Q : unit -> ist -> store -> Prop) st s,
  (forall s', updates vi (fun i p => s (cell vj i p)) s s' -> Q tt st s') -> wp (pl_copy A lg pl vi vj) Q st s.
Proof.
  intros Hv Hw Hne Q st s HQ.
  apply (@wp_components _ vi (fun s i p => s (cell vj i p)) Hv).
  - intros i st1 s1 Hi. unfold bind, lift. rewrite (get_vector_vec Hv Hi), (get_vector_vec Hw Hi). cbn [obind app].
    unfold issue, copy. rewrite (vec_same_layout Hv Hw Hi). cbn [oassert]. unfold submit, get_requirement. cbn [ln_reqs].
    rewrite (@not_interfering2 vj vi i READ_ONLY WRITE_DISCARD _ _ Hw Hv Hi) by congruence. cbn [obind].
    eexists. split; [reflexivity|].
    assert (E : copy A lg (vec pl vi i) (vec pl vj i) = Ok (mk_launch (pointwise lg (vec pl vi i) (copy_step A (vec pl vi i) (vec pl vj i))) [get_requirement lg (vec pl vj i) READ_ONLY; get_requirement lg (vec pl vi i) WRITE_DISCARD] [] None [] [])).
    { unfold copy. rewrite (vec_same_layout Hv Hw Hi). cbn [oassert]. unfold submit, get_requirement. cbn [ln_reqs].
      rewrite (@not_interfering2 vj vi i READ_ONLY WRITE_DISCARD _ _ Hw Hv Hi) by congruence. reflexivity. }
    split; [apply (copy_good A Hlg _ (rd_constructed Hrd Hv Hi) E)|]. rewrite effect_one.
    apply (copy_effect A Hlg _ (rd_constructed Hrd Hv Hi) E). apply interleave_concat.
  - intros i s0 s1 Hi H p Hp. apply H. intros j q Hj Hji E. apply cell_inj in E; auto. destruct E as [E _]. congruence.
  - exact HQ.
Qed.
Definition alpha_of (s : store) (fs : list nat) : T := match get_alpha A (map (fut s) fs) with Ok a => a | _ => a0 A end.
Lemma alpha_of_ext s s' fs : (forall f, In f fs -> s' (LFut f) = s (LFut f)) -> alpha_of s' fs = alpha_of s fs.
Proof. intros H. unfold alpha_of. replace (map (fut s') fs) with (map (fut s) fs); [reflexivity|]. apply map_ext_in. intros f Hf. symmetry. apply H. exact Hf. Qed.

Lemma wp_scal vi f : vi < nv -> forall (Q : unit -> ist -> store -> Prop) st s,
  (forall s', updates vi (fun i p => amul A (s (LFut f)) (s (cell vi i p))) s s' -> Q tt st s') -> wp (pl_scal A lg pl vi f) Q st s.
Proof.
  intros Hv Q st s HQ.
  apply (@wp_components _ vi (fun s i p => amul A (s (LFut f)) (s (cell vi i p))) Hv).
  - intros i st1 s1 Hi. unfold bind, lift. rewrite (get_vector_vec Hv Hi). cbn [obind app].
    assert (E : scal A lg (vec pl vi i) [f] = Ok (mk_launch (pointwise lg (vec pl vi i) (scal_step A (vec pl vi i) [f])) [get_requirement lg (vec pl vi i) READ_WRITE] [f] None [] [])) by reflexivity.
    unfold issue. rewrite E. cbn [obind]. eexists. split; [reflexivity|].
    split; [apply (scal_good A Hlg _ (rd_constructed Hrd Hv Hi) E)|]. rewrite effect_one.
    destruct (scal_effect A Hlg _ (rd_constructed Hrd Hv Hi) E (interleave_concat _) s1) as [alpha [Ea U]].
    cbn in Ea. injection Ea as <-. exact U.
  - intros i s0 s1 Hi H p Hp. f_equal; apply H.
    + intros j q _ _. discriminate.
    + intros j q Hj Hji E. apply cell_inj in E; auto. destruct E as [_ [E _]]. congruence.
  - exact HQ.
Qed.
Lemma wp_axpy vi fs vj : vi < nv -> vj < nv -> vi <> vj -> length fs <= 4 -> forall (Q : unit -> ist -> store -> Prop) st s,
  (forall s', updates vi (fun i p => afma A (alpha_of s fs) (s (cell vj i p)) (s (cell vi i p))) s s' -> Q tt st s') ->
  wp (pl_axpy A lg pl vi fs vj) Q st s.
Proof.
  intros Hv Hw Hne Hfs Q st s HQ.
  apply (@wp_components _ vi (fun s i p => afma A (alpha_of s fs) (s (cell vj i p)) (s (cell vi i p))) Hv).
  - intros i st1 s1 Hi. unfold bind, lift. rewrite (get_vector_vec Hv Hi), (get_vector_vec Hw Hi). cbn [obind app].
    assert (E : exists ln, axpy A lg (vec pl vi i) fs (vec pl vj i) = Ok ln).
    { unfold axpy. rewrite (vec_same_layout Hv Hw Hi). unfold alpha_ok. rewrite (proj2 (Nat.leb_le _ _) Hfs). cbn [oassert].
      unfold submit, get_requirement. cbn [ln_reqs]. rewrite (@not_interfering2 vi vj i READ_WRITE READ_ONLY _ _ Hv Hw Hi) by congruence.
      eexists; reflexivity. }
    destruct E as [ln E]. unfold issue. rewrite E. cbn [obind]. exists ln. split; [reflexivity|].
    split; [apply (axpy_good A Hlg _ _ (rd_constructed Hrd Hv Hi) E)|]. rewrite effect_one.
    destruct (axpy_effect A Hlg _ _ (rd_constructed Hrd Hv Hi) E (interleave_concat _) s1) as [alpha [Ea U]].
    unfold alpha_of. rewrite Ea. exact U.
  - intros i s0 s1 Hi H p Hp. f_equal.
    + apply alpha_of_ext. intros f _. apply H. intros j q _ _. discriminate.
    + apply H. intros j q Hj Hji E. apply cell_inj in E; auto. destruct E as [E _]. congruence.
    + apply H. intros j q Hj Hji E. apply cell_inj in E; auto. destruct E as [_ [E _]]. congruence.
  - exact HQ.
Qed.
Lemma wp_xpay vi fs vj : vi < nv -> vj < nv -> vi <> vj -> length fs <= 4 -> forall (Q : unit -> ist -> store -> Prop) st s,
  (forall s', updates vi (fun i p => afma A (alpha_of s fs) (s (cell vi i p)) (s (cell vj i p))) s s' -> Q tt st s') ->
  wp (pl_xpay A lg pl vi fs vj) Q st s.
Proof.
  intros Hv Hw Hne Hfs Q st s HQ.
  apply (@wp_components _ vi (fun s i p => afma A (alpha_of s fs) (s (cell vi i p)) (s (cell vj i p))) Hv).
  - intros i st1 s1 Hi. unfold bind, lift. rewrite (get_vector_vec Hv Hi), (get_vector_vec Hw Hi). cbn [obind app].
    assert (E : exists ln, xpay A lg (vec pl vi i) fs (vec pl vj i) = Ok ln).
    { unfold xpay. rewrite (vec_same_layout Hv Hw Hi). unfold alpha_ok. rewrite (proj2 (Nat.leb_le _ _) Hfs). cbn [oassert].
      unfold submit, get_requirement. cbn [ln_reqs]. rewrite (@not_interfering2 vi vj i READ_WRITE READ_ONLY _ _ Hv Hw Hi) by congruence.
      eexists; reflexivity. }
    destruct E as [ln E]. unfold issue. rewrite E. cbn [obind]. exists ln. split; [reflexivity|].
    split; [apply (xpay_good A Hlg _ _ (rd_constructed Hrd Hv Hi) E)|]. rewrite effect_one.
    destruct (xpay_effect A Hlg _ _ (rd_constructed Hrd Hv Hi) E (interleave_concat _) s1) as [alpha [Ea U]].
    unfold alpha_of. rewrite Ea. exact U.
  - intros i s0 s1 Hi H p Hp. f_equal.
    + apply alpha_of_ext. intros f _. apply H. intros j q _ _. discriminate.
    + apply H. intros j q Hj Hji E. apply cell_inj in E; auto. destruct E as [_ [E _]]. congruence.
    + apply H. intros j q Hj Hji E. apply cell_inj in E; auto. destruct E as [E _]. congruence.
  - exact HQ.
Qed.

(** ** dot *)
(** only futures and reduction partials allocated from [st] on were written *)
Definition frame_fut (st : ist) (s s' : store) : Prop :=
  forall l, (forall m, next_fut st <= m -> l <> LFut m /\ forall c, l <> LPart m c) -> s' l = s l.
Lemma frame_fut_trans st st1 s s1 s2 : next_fut st <= next_fut st1 -> frame_fut st s s1 -> frame_fut st1 s1 s2 -> frame_fut st s s2.
Proof. intros Hle H1 H2 l Hl. rewrite H2; [apply H1; exact Hl|]. intros m Hm. apply Hl. lia. Qed.
Lemma frame_fut_cell st s s' vi i p : frame_fut st s s' -> s' (cell vi i p) = s (cell vi i p).
Proof. intros H. apply H. intros m _. split; [discriminate|intros c; discriminate]. Qed.
Lemma frame_fut_old st s s' f : frame_fut st s s' -> f < next_fut st -> s' (LFut f) = s (LFut f).
Proof. intros H Hf. apply H. intros m Hm. split; [intros E; injection E as ->; lia|intros c; discriminate]. Qed.
Lemma task_frame st s s' : (forall l, l <> LFut (next_fut st) -> s' l = s l) -> frame_fut st s s'.
Proof. intros H l Hl. apply H. apply (Hl (next_fut st)). lia. Qed.

(** value of one component dot: Legion's reduction of the partial results of the pieces *)
Definition component_value (s : store) (vi vj i : nat) (d : T) : Prop :=
  exists m, d = reduction m (map (partial_dot A s (vec pl vi i) (vec pl vj i)) (pieces lg (vec pl vi i))).
Lemma component_value_ext s s' vi vj i d : (forall l v p, l = at_point v p -> s' l = s l) -> component_value s vi vj i d -> component_value s' vi vj i d.
Proof.
  intros H [m ->]. exists m. f_equal. apply map_ext. intros piece. unfold partial_dot. f_equal.
  apply flat_map_ext. intros p. rewrite !(H _ _ p eq_refl). reflexivity.
Qed.

Lemma wp_component_dot vi vj i : vi < nv -> vj < nv -> i < n -> forall (Q : nat -> ist -> store -> Prop) st s,
  (forall s', component_value s vi vj i (s' (LFut (next_fut st))) -> frame_fut st s s' -> Q (next_fut st) (next st) s') ->
  wp (component_dot A lg reduction pl vi vj i) Q st s.
Proof.
  intros Hv Hw Hi Q st s HQ. unfold component_dot. apply wp_bind. eapply wp_lift; [apply get_vector_vec; assumption|].
  apply wp_bind. eapply wp_lift; [apply get_vector_vec; assumption|]. unfold vector_dot. apply wp_bind. apply wp_fresh_fut.
  apply wp_bind. assert (E : exists ln1 ln2, dot A lg reduction (vec pl vi i) (vec pl vj i) (next_fut st) = Ok [ln1; ln2]).
  { unfold dot. rewrite (vec_same_layout Hv Hw Hi). cbn [oassert]. unfold submit. cbn [ln_reqs].
    assert (E : interfering [get_requirement lg (vec pl vi i) READ_ONLY; get_requirement lg (vec pl vj i) READ_ONLY] = false).
    { cbn. unfold reqs_alias. cbn. rewrite andb_false_r. reflexivity. }
    rewrite E. cbn [obind]. eexists _, _. reflexivity. }
  destruct E as [ln1 [ln2 E]]. eapply wp_issue_all; [exact E|apply (dot_good A lg reduction _ _ _ E)|].
  apply wp_ret. apply HQ.
  - exists (next_fut st).
    destruct (@dot_effect T A lg reduction _ _ _ _ (concat (ln_tasks ln1)) (concat (ln_tasks ln2)) E) with (s := s) as [D1 D2].
    { repeat constructor; apply interleave_concat. }
    rewrite effect_cons, !effect_one, <- run_app. exact D1.
  - intros l Hl. destruct (@dot_effect T A lg reduction _ _ _ _ (concat (ln_tasks ln1)) (concat (ln_tasks ln2)) E) with (s := s) as [D1 D2].
    { repeat constructor; apply interleave_concat. }
    rewrite effect_cons, !effect_one, <- run_app. apply D2; apply (Hl (next_fut st)); lia.
Qed.

(** the sum, left to right, of the component values *)
Definition dot_value (s : store) (vi vj : nat) (d : T) : Prop :=
  exists d0 ds, d = fold_left (aadd A) ds d0 /\ Forall2 (component_value s vi vj) (seq 0 n) (d0 :: ds).

Lemma wp_dot vi vj : 0 < n -> vi < nv -> vj < nv -> forall (Q : nat -> ist -> store -> Prop) st s,
  (forall f st' s', next_fut st <= f -> f < next_fut st' -> next_region st' = next_region st -> frame_fut st s s' ->
     dot_value s vi vj (s' (LFut f)) -> Q f st' s') ->
  wp (pl_dot A lg reduction pl vi vj) Q st s.
Proof.
  intros Hn Hv Hw Q st s HQ. unfold pl_dot. apply wp_bind. eapply wp_lift; [apply (rd_num Hrd)|].
  apply wp_bind. apply wp_component_dot; [assumption|assumption|exact Hn|]. intros s1 V1 F1.
  set (I := fun (done : list nat) (f : nat) (st1 : ist) (s1 : store) =>
     next_fut st <= f /\ f < next_fut st1 /\ next_region st1 = next_region st /\ frame_fut st s s1 /\
     exists d0 ds, s1 (LFut f) = fold_left (aadd A) ds d0 /\ Forall2 (component_value s vi vj) (0 :: done) (d0 :: ds)).
  eapply wp_conseq; [apply (@wp_mfold T nat nat _ I (seq 1 (n - 1)))|].
  - intros done i rest f st1 s2 E [I1 [I2 [I3 [I4 [d0 [ds [I5 I6]]]]]]].
    assert (Hi : In i (seq 1 (n - 1))) by (rewrite E; apply in_or_app; right; left; reflexivity). apply in_seq in Hi.
    apply wp_bind. apply wp_component_dot; [assumption|assumption|lia|]. intros s3 V3 F3.
    apply wp_scalar_task. intros s4 E4 F4. cbn [map on2 next next_fut] in E4, F4.
    unfold I; cbn [next next_fut next_region]. split; [lia|]. split; [lia|]. split; [exact I3|]. split.
    { apply (@frame_fut_trans st st1 s s2 s4); [lia|exact I4|]. intros l Hl. rewrite F4.
      - apply F3. intros m Hm. apply Hl. exact Hm.
      - apply (Hl (S (next_fut st1))). lia. }
    exists d0, (ds ++ [s3 (LFut (next_fut st1))]). split.
    { rewrite E4. rewrite fold_left_app. cbn [fold_left]. rewrite <- I5. rewrite (frame_fut_old F3 I2). reflexivity. }
    change (0 :: done ++ [i]) with ((0 :: done) ++ [i]). change (d0 :: ds ++ [s3 (LFut (next_fut st1))]) with ((d0 :: ds) ++ [s3 (LFut (next_fut st1))]).
    apply Forall2_app; [exact I6|]. constructor; [|constructor].
    eapply component_value_ext; [|exact V3]. intros l v p ->. symmetry. apply I4. intros m _. split; [discriminate|intros c; discriminate].
  - unfold I; cbn [next next_fut next_region]. split; [lia|]. split; [lia|]. split; [reflexivity|]. split; [exact F1|].
    exists (s1 (LFut (next_fut st))), []. split; [reflexivity|]. constructor; [exact V1|constructor].
  - intros f st1 s2 [I1 [I2 [I3 [I4 [d0 [ds [I5 I6]]]]]]]. apply HQ; try assumption.
    exists d0, ds. split; [exact I5|]. replace (seq 0 n) with (0 :: seq 1 (n - 1)); [exact I6|]. destruct n; [lia|]. cbn. rewrite Nat.sub_0_r. reflexivity.
Qed.

(** ** matvec *)
(** the value of entry (i, p) of the product: all matrices with range index [i], in the order they were added *)
Definition matvec_value (x : nat -> point -> T) (i : nat) (p : point) : T :=
  fold_left (fun acc pm => if pm_range pm =? i
     then accumulate_row A (x (pm_domain pm)) acc (row_triples lg (pm_matrix pm) (pts (pm_domain pm)) p) else acc)
   (pl_mats pl) (a0 A).

Lemma accumulate_row_ext (x y : point -> T) acc ts cols : (forall q, In q cols -> x q = y q) ->
  (forall r c e, In (r, c, e) ts -> In c cols) -> accumulate_row A x acc ts = accumulate_row A y acc ts.
Proof.
  intros H Hc. unfold accumulate_row. apply fold_left_ext. intros a [[r c] e] Hin. rewrite (H c); [reflexivity|].
  apply (Hc r c e Hin).
Qed.
Lemma row_triples_cols (m : matrix T) cols p r c e : In (r, c, e) (row_triples lg m cols p) -> In c cols.
Proof. intros H. apply filter_In in H. destruct H as [_ H]. apply andb_true_iff in H. apply mem_spec. apply H. Qed.

Lemma wp_matvec vi vj : vi < nv -> vj < nv -> vi <> vj -> forall (Q : unit -> ist -> store -> Prop) st s,
  (forall s', updates vi (matvec_value (fun i p => s (cell vj i p))) s s' -> Q tt st s') ->
  wp (pl_matvec A lg pl vi vj) Q st s.
Proof.
  intros Hv Hw Hne Q st s HQ. unfold pl_matvec. apply wp_bind. apply wp_zero_fill; [exact Hv|]. intros s0 [Z1 Z2].
  set (val := fun (done : list (pl_matrix T)) i p => fold_left (fun acc pm => if pm_range pm =? i
     then accumulate_row A (fun q => s (cell vj (pm_domain pm) q)) acc (row_triples lg (pm_matrix pm) (pts (pm_domain pm)) p) else acc) done (a0 A)).
  set (I := fun (done : list (pl_matrix T)) (st1 : ist) (s1 : store) => st1 = st /\ updates vi (val done) s s1).
  eapply wp_conseq; [apply (@wp_mfor T (pl_matrix T) _ I (pl_mats pl))|].
  - intros done pm rest st1 s1 E [-> [I1 I2]].
    assert (Hin : In pm (pl_mats pl)) by (rewrite E; apply in_or_app; right; left; reflexivity).
    destruct (rd_mats Hrd _ Hin) as [M1 [M2 [M3 [M4 M5]]]].
    apply wp_bind. eapply wp_lift; [apply get_vector_vec; assumption|].
    apply wp_bind. eapply wp_lift; [apply get_vector_vec; assumption|].
    destruct (rd_layout Hrd Hv M3) as [_ Ep]. destruct (rd_layout Hrd Hw M2) as [Es _].
    assert (K : kernel_from_range lg (pm_matrix pm) (pv_part (vec pl vi (pm_range pm))) = Ok (pm_kernel pm)) by (rewrite Ep; exact M4).
    assert (G : pm_ghost pm = domain_from_kernel lg (pm_matrix pm) (pv_space (vec pl vj (pm_domain pm))) (pm_kernel pm)) by (rewrite Es; exact M5).
    rewrite G.
    assert (Hd : pv_region (vec pl vi (pm_range pm)) <> pv_region (vec pl vj (pm_domain pm)) \/ pv_fid (vec pl vi (pm_range pm)) <> pv_fid (vec pl vj (pm_domain pm))).
    { destruct (Nat.eq_dec (pv_region (vec pl vi (pm_range pm))) (pv_region (vec pl vj (pm_domain pm)))) as [E1|E1]; [|left; exact E1].
      right. intros E2. apply Hne. apply (rd_distinct Hrd Hv M3 Hw M2 E1 E2). }
    destruct (matvec_accepts A (pm_matrix pm) (vec pl vj (pm_domain pm)) (rd_constructed Hrd Hv M3) K Hd) as [ln Hln].
    eapply wp_issue; [exact Hln|apply (matvec_good A Hlg _ _ _ _ (rd_constructed Hrd Hv M3) Hln)|].
    split; [reflexivity|]. rewrite effect_one.
    destruct (matvec_derived_effect A Hlg _ _ (rd_constructed Hrd Hv M3) M1 K Hln (interleave_concat _) s1) as [D1 D2].
    rewrite (vec_space Hv M3) in D1, D2. rewrite (vec_space Hw M2) in D1.
    split.
    + intros i p Hi Hp. unfold val. rewrite fold_left_app. cbn [fold_left]. fold (val done i p).
      destruct (pm_range pm =? i) eqn:Er.
      * apply Nat.eqb_eq in Er. subst i. unfold cell at 1. rewrite (D1 p Hp).
        change (at_point (vec pl vi (pm_range pm)) p) with (cell vi (pm_range pm) p). rewrite (I1 _ _ Hi Hp).
        apply accumulate_row_ext with (cols := pts (pm_domain pm)).
        -- intros q Hq. change (at_point (vec pl vj (pm_domain pm)) q) with (cell vj (pm_domain pm) q). apply I2. apply other_cell; auto.
        -- intros r c e. apply row_triples_cols.
      * rewrite D2; [apply I1; assumption|]. intros q Hq Eq. apply cell_inj in Eq; auto. apply Nat.eqb_neq in Er. destruct Eq as [_ [Eq _]]. congruence.
    + intros l Hl. rewrite D2; [apply I2; exact Hl|]. intros q Hq ->. apply Hl. exists (pm_range pm), q. auto.
  - split; [reflexivity|]. split; [exact Z1|exact Z2].
  - intros u st1 s1 [-> U]. destruct u. apply HQ. exact U.
Qed.
End Facts.
