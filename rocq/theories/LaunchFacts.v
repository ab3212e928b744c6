(** LaunchFacts: every vector launch respects its declared privileges and its point tasks do not interfere. *)
From Verif Require Import Base Index Outcome Sched Async Arith Launch Vector PartitionSpec VectorFacts.
Set Implicit Arguments.

Definition good_launch {T} (ln : launch T) : Prop :=
  privileges_respected ln /\ non_interfering (ln_tasks ln).

Lemma privileges_well_declared T (ln : launch T) : privileges_respected ln -> well_declared (op_of ln).
Proof.
  intros H t st Ht Hst. cbn [op_of o_tasks o_writes o_reads] in *. apply In_nth_error in Ht. destruct Ht as [c Hc].
  destruct (H c t st Hc Hst) as [Hw Hr]. split.
  - destruct (tgt st) as [r f p|n|n k]; cbn in *; [|exact Hw|exact Hw].
    destruct Hw as [rq [piece [H1 [H2 [H3 [H4 [H5 H6]]]]]]]. exists rq. repeat split; try assumption.
    apply in_concat. exists piece. split; [eapply nth_error_In; exact H5|exact H6].
  - intros l Hl. left. specialize (Hr l Hl). destruct l as [r f p|n|n k]; cbn in *; [|exact Hr|exact Hr].
    destruct Hr as [rq [piece [H1 [H2 [H3 [H4 [H5 H6]]]]]]]. exists rq. repeat split; try assumption.
    apply in_concat. exists piece. split; [eapply nth_error_In; exact H5|exact H6].
Qed.

Section Facts.
Variable T : Type.
Variable A : arith T.
Variable lg : legion.
Hypothesis Hlg : legion_ok lg.

Lemma pointwise_good y (f : point -> step loc T) reqs futs : constructed lg y ->
  (forall p, tgt (f p) = at_point y p) -> (forall p q, p <> q -> ~ In (at_point y p) (rds (f q))) ->
  (exists rq, In rq reqs /\ rq_region rq = pv_region y /\ rq_fid rq = pv_fid y /\ rq_pieces rq = pieces lg y /\ may_write (rq_priv rq) = true) ->
  (forall p l, In l (rds (f p)) ->
     (exists n, l = LFut n /\ In n futs) \/
     (exists rq, In rq reqs /\ l = LVec (rq_region rq) (rq_fid rq) p /\ rq_pieces rq = pieces lg y /\ may_read (rq_priv rq) = true)) ->
  good_launch (mk_launch (pointwise lg y f) reqs futs None [] []).
Proof.
  intros Hc Ht Hr [rq [Hrq [E1 [E2 [E3 E4]]]]] Hrd. destruct (constructed_pieces Hlg Hc) as [Hn Hin].
  assert (Hi : forall p q, tgt (f p) = tgt (f q) -> p = q) by (intros p q; rewrite !Ht; apply at_point_inj).
  split.
  - intros c t st Hct Hst. cbn [ln_tasks] in Hct. unfold pointwise in Hct. rewrite nth_error_map_some in Hct.
    destruct (nth_error (pieces lg y) c) as [piece|] eqn:Ec; [|discriminate]. injection Hct as <-.
    apply in_map_iff in Hst. destruct Hst as [p [<- Hp]]. split.
    + rewrite Ht. cbn. exists rq, piece. repeat split; try assumption. rewrite E3. exact Ec.
    + intros l Hl. destruct (Hrd p l Hl) as [[n [-> Hn']]|[rq' [H1 [-> [H3 H4]]]]]; cbn.
      * exact Hn'.
      * exists rq', piece. repeat split; try assumption. rewrite H3. exact Ec.
  - cbn [ln_tasks]. apply pointwise_non_interfering; [exact Hi|exact Hn|].
    intros p q _ _ Hpq. rewrite Ht. apply Hr. exact Hpq.
Qed.

Lemma same_layout_pieces y x : same_layout y x = true -> pieces lg x = pieces lg y.
Proof.
  unfold same_layout. rewrite !andb_true_iff. intros [_ H]. apply Nat.eqb_eq in H. unfold pieces. congruence.
Qed.

Ltac req0 := eexists; split; [left; reflexivity|]; repeat split.
Ltac req1 := eexists; split; [right; left; reflexivity|]; repeat split.

Lemma fill_good v c (ln : launch T) : constructed lg v -> constant_fill lg v c = Ok ln -> good_launch ln.
Proof.
  intros Hc H. apply submit_ok in H. destruct H as [-> _].
  apply pointwise_good; [exact Hc|reflexivity|intros p q _ []|req0|intros p l []].
Qed.
Lemma fill_future_good v n ln : constructed lg v -> constant_fill_future A lg v n = Ok ln -> good_launch ln.
Proof.
  intros Hc H. apply submit_ok in H. destruct H as [-> _].
  apply pointwise_good; [exact Hc|reflexivity|intros p q _ [E|[]]; discriminate|req0|].
  intros p l [<-|[]]. left. exists n. split; [reflexivity|left; reflexivity].
Qed.
Lemma copy_good y x ln : constructed lg y -> copy A lg y x = Ok ln -> good_launch ln.
Proof.
  intros Hc H. apply oassert_ok in H. destruct H as [Hl H]. apply submit_ok in H. destruct H as [-> Hni]. cbn [ln_reqs] in Hni.
  apply pointwise_good; [exact Hc|reflexivity| |req1|].
  - intros p q _ [E|[]]. refine (@no_alias2 x y READ_ONLY WRITE_DISCARD (pieces lg x) (pieces lg y) Hni eq_refl _ _ E).
  - intros p l [<-|[]]. right. req0. apply same_layout_pieces. exact Hl.
Qed.
Lemma scal_good x fs ln : constructed lg x -> scal A lg x fs = Ok ln -> good_launch ln.
Proof.
  intros Hc H. apply oassert_ok in H. destruct H as [Ha H]. apply submit_ok in H. destruct H as [-> Hni].
  apply pointwise_good; [exact Hc|reflexivity| |req0|].
  - intros p q Hpq Hin. cbn [rds scal_step] in Hin. apply in_app_or in Hin. destruct Hin as [Hin|[E|[]]].
    + apply (in_futs_at _ _ _ Hin).
    + apply Hpq. symmetry. apply (at_point_inj E).
  - intros p l Hin. cbn [rds scal_step] in Hin. apply in_app_or in Hin. destruct Hin as [Hin|[<-|[]]].
    + left. apply in_map_iff in Hin. destruct Hin as [n [<- Hn]]. exists n. auto.
    + right. req0.
Qed.
Lemma binary_good y x fs (f : point -> step loc T) : constructed lg y -> same_layout y x = true ->
  interfering [get_requirement lg y READ_WRITE; get_requirement lg x READ_ONLY] = false ->
  (forall p, tgt (f p) = at_point y p) -> (forall p, rds (f p) = map LFut fs ++ [at_point x p; at_point y p]) ->
  good_launch (mk_launch (pointwise lg y f) [get_requirement lg y READ_WRITE; get_requirement lg x READ_ONLY] fs None [] []).
Proof.
  intros Hc Hl Hni Ht Hr.
  apply pointwise_good; [exact Hc|exact Ht| |req0|].
  - intros p q Hpq Hin. rewrite Hr in Hin. apply in_app_or in Hin. destruct Hin as [Hin|[E|[E|[]]]].
    + apply (in_futs_at _ _ _ Hin).
    + symmetry in E. revert E. apply (@no_alias2 y x READ_WRITE READ_ONLY (pieces lg y) (pieces lg x) Hni eq_refl).
    + apply Hpq. symmetry. apply (at_point_inj E).
  - intros p l Hin. rewrite Hr in Hin. apply in_app_or in Hin. destruct Hin as [Hin|[<-|[<-|[]]]].
    + left. apply in_map_iff in Hin. destruct Hin as [n [<- Hn]]. exists n. auto.
    + right. req1. apply same_layout_pieces. exact Hl.
    + right. req0.
Qed.
Lemma axpy_good y fs x ln : constructed lg y -> axpy A lg y fs x = Ok ln -> good_launch ln.
Proof.
  intros Hc H. apply oassert_ok in H. destruct H as [Hl H]. apply oassert_ok in H. destruct H as [Ha H].
  apply submit_ok in H. destruct H as [-> Hni]. apply binary_good; try assumption; reflexivity.
Qed.
Lemma xpay_good y fs x ln : constructed lg y -> xpay A lg y fs x = Ok ln -> good_launch ln.
Proof.
  intros Hc H. apply oassert_ok in H. destruct H as [Hl H]. apply oassert_ok in H. destruct H as [Ha H].
  apply submit_ok in H. destruct H as [-> Hni]. apply binary_good; try assumption; reflexivity.
Qed.

(** ---- dot ---- *)
Variable reduction : nat -> list T -> T.

Lemma combine_seq_nth X (l : list X) k c x : nth_error (combine (seq k (length l)) l) c = Some x ->
  exists y, nth_error l c = Some y /\ x = (k + c, y).
Proof.
  revert k c. induction l as [|a l IH]; intros k c H; cbn in *; [destruct c; discriminate|].
  destruct c as [|c]; cbn in H.
  - injection H as <-. exists a. split; [reflexivity|]. f_equal. lia.
  - destruct (IH (S k) c H) as [y [Hy ->]]. exists y. split; [exact Hy|]. f_equal. lia.
Qed.
Lemma combine_seq_nth_inv X (l : list X) k c y : nth_error l c = Some y ->
  nth_error (combine (seq k (length l)) l) c = Some (k + c, y).
Proof.
  revert k c. induction l as [|a l IH]; intros k c H; cbn in *; [destruct c; discriminate|].
  destruct c as [|c]; cbn in *.
  - injection H as ->. f_equal. f_equal. lia.
  - rewrite (IH (S k) c H). f_equal. f_equal. lia.
Qed.

Definition dot_tasks (v w : pvec) (n : nat) : list (list (step loc T)) :=
  map (fun cp => dot_task A v w n (fst cp) (snd cp)) (combine (seq 0 (length (pieces lg v))) (pieces lg v)).
Lemma dot_tasks_nth v w n c t : nth_error (dot_tasks v w n) c = Some t ->
  exists piece, nth_error (pieces lg v) c = Some piece /\ t = dot_task A v w n c piece.
Proof.
  unfold dot_tasks. rewrite nth_error_map_some. intros H.
  destruct (nth_error (combine _ _) c) as [cp|] eqn:E; [|discriminate]. injection H as <-.
  apply combine_seq_nth in E. destruct E as [piece [Hp ->]]. exists piece. split; [exact Hp|]. reflexivity.
Qed.

Lemma dot_tasks_non_interfering v w n : non_interfering (dot_tasks v w n).
Proof.
  intros i j ti tj l Hij Hi Hj [st [Hst Ht]].
  apply dot_tasks_nth in Hi. destruct Hi as [pi [_ ->]]. apply dot_tasks_nth in Hj. destruct Hj as [pj [_ ->]].
  destruct Hst as [<-|[]]. cbn in Ht. subst l. split; intros [st [[<-|[]] Hin]]; cbn in Hin.
  - injection Hin as E. congruence.
  - apply in_flat_map in Hin. destruct Hin as [p [_ [E|[E|[]]]]]; discriminate.
Qed.

Lemma dot_good v w n lns : dot A lg reduction v w n = Ok lns -> Forall good_launch lns.
Proof.
  intros H. apply oassert_ok in H. destruct H as [Hl H]. unfold obind in H.
  match type of H with match ?m with _ => _ end = _ => destruct m as [ln| | |] eqn:E; try discriminate end.
  injection H as <-. apply submit_ok in E. destruct E as [-> _]. constructor; [|constructor; [|constructor]].
  - split; cbn [ln_tasks].
    + intros c t st Hc Hst. cbn [ln_tasks] in Hc. apply dot_tasks_nth in Hc. destruct Hc as [piece [Hp ->]].
      destruct Hst as [<-|[]]. cbn [tgt rds task_write_ok ln_parts_out].
      split.
      * apply in_map_iff. exists c. split; [reflexivity|]. apply in_seq. split; [lia|]. cbn. apply nth_error_Some. rewrite Hp. discriminate.
      * intros l Hin. apply in_flat_map in Hin. destruct Hin as [p [Hpp [<-|[<-|[]]]]]; cbn.
        -- exists (get_requirement lg v READ_ONLY), piece. repeat split; auto.
        -- exists (get_requirement lg w READ_ONLY), piece. repeat split; auto.
           cbn [rq_pieces get_requirement]. rewrite (same_layout_pieces _ _ Hl). exact Hp.
    + apply dot_tasks_non_interfering.
  - split; cbn [ln_tasks].
    + intros [|c] t st Hc Hst; cbn in Hc; [|destruct c; discriminate]. injection Hc as <-. destruct Hst as [<-|[]].
      cbn. split; [reflexivity|]. intros l Hin. apply in_map_iff in Hin. destruct Hin as [k [<- Hk]].
      cbn. apply in_map_iff. exists k. auto.
    + intros [|i] [|j] ti tj l Hij Hi Hj; try congruence; cbn in *; try (destruct i; discriminate); destruct j; discriminate.
Qed.

Definition partial_dot (s : store loc T) (v w : pvec) (piece : list point) : T :=
  dot_loop A (a0 A) (flat_map (fun p => [s (at_point v p); s (at_point w p)]) piece).

Notation run := (run loc_dec).
Lemma map_flat_map X Y Z (g : Y -> Z) (f : X -> list Y) l : map g (flat_map f l) = flat_map (fun x => map g (f x)) l.
Proof. induction l as [|a l IH]; cbn; [reflexivity|]. rewrite map_app, IH. reflexivity. Qed.

Theorem dot_effect v w n lns tr1 tr2 : dot A lg reduction v w n = Ok lns ->
  Forall2 (fun ln tr => interleave (ln_tasks ln) tr) lns [tr1; tr2] -> forall s,
  run (tr1 ++ tr2) s (LFut n) = reduction n (map (partial_dot s v w) (pieces lg v)) /\
  (forall l, l <> LFut n -> (forall c, l <> LPart n c) -> run (tr1 ++ tr2) s l = s l).
Proof.
  intros H Hil s. apply oassert_ok in H. destruct H as [Hl H]. unfold obind in H.
  match type of H with match ?m with _ => _ end = _ => destruct m as [ln| | |] eqn:E; try discriminate end.
  injection H as <-. apply submit_ok in E. destruct E as [-> _].
  inversion Hil as [|a1 b1 l1 l2 H1 Hil2]; subst. inversion Hil2 as [|a2 b2 l3 l4 H2 Hil3]; subst. clear Hil Hil2 Hil3.
  cbn [ln_tasks] in *. fold (dot_tasks v w n) in H1.
  set (red := mk_step (LFut n) (map (LPart n) (seq 0 (length (pieces lg v)))) (reduction n)) in *.
  assert (E2 : forall s' l, run tr2 s' l = run [red] s' l).
  { intros s' l. rewrite (interleave_deterministic loc_dec H2); [reflexivity|].
    intros [|i] [|j] ti tj l' Hij Hi Hj; try congruence; cbn in *; try (destruct i; discriminate); destruct j; discriminate. }
  assert (Hpart : forall c piece, nth_error (pieces lg v) c = Some piece -> run tr1 s (LPart n c) = partial_dot s v w piece).
  { intros c piece Hc.
    assert (Hn : nth_error (dot_tasks v w n) c = Some (dot_task A v w n c piece)).
    { unfold dot_tasks. rewrite nth_error_map_some, (combine_seq_nth_inv _ 0 c Hc). reflexivity. }
    rewrite (interleave_task _ _ loc_dec _ _ H1 (dot_tasks_non_interfering v w n) s c _ (LPart n c) Hn).
    - unfold dot_task. cbn [Sched.run fold_left]. unfold exec. cbn [tgt rds fn]. rewrite upd_same. unfold partial_dot. rewrite map_flat_map. reflexivity.
    - intros j tj Hj Htj [st [Hst Ht]]. apply dot_tasks_nth in Htj. destruct Htj as [pj [_ ->]]. destruct Hst as [<-|[]].
      cbn in Ht. congruence. }
  assert (Hframe : forall l, (forall c, l <> LPart n c) -> run tr1 s l = s l).
  { intros l Hne. apply (interleave_frame _ _ loc_dec _ _ H1). intros t Ht [st [Hst Htt]].
    apply In_nth_error in Ht. destruct Ht as [c Hc]. apply dot_tasks_nth in Hc. destruct Hc as [piece [_ ->]].
    destruct Hst as [<-|[]]. cbn in Htt. apply (Hne c). congruence. }
  split.
  - rewrite run_app, E2. cbn [Sched.run fold_left]. unfold exec. cbn [tgt rds fn red]. rewrite upd_same. f_equal.
    rewrite map_map. apply list_eq_nth_error. intros i. rewrite !nth_error_map_some.
    destruct (Nat.lt_ge_cases i (length (pieces lg v))) as [Hi|Hi].
    + destruct (nth_error (pieces lg v) i) as [piece|] eqn:Ep; [|apply nth_error_None in Ep; lia].
      rewrite (@nth_error_nth' nat _ i 0) by (rewrite seq_length; exact Hi). rewrite seq_nth by exact Hi. cbn.
      f_equal. apply Hpart. exact Ep.
    + rewrite (proj2 (nth_error_None (pieces lg v) i) Hi).
      assert (E0 : nth_error (seq 0 (length (pieces lg v))) i = None) by (apply nth_error_None; rewrite seq_length; exact Hi).
      rewrite E0. reflexivity.
  - intros l Hl1 Hl2. rewrite run_app, E2. cbn [Sched.run fold_left]. unfold exec. cbn [tgt red].
    rewrite upd_other by exact Hl1. apply Hframe. exact Hl2.
Qed.
End Facts.
