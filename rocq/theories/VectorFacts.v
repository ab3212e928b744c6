(** VectorFacts: effect of the vector launches, for every interleaving of their point tasks. *)
From Verif Require Import Base Index Outcome Sched Async Arith Launch Vector PartitionSpec.
Set Implicit Arguments.

Definition constructed (lg : legion) (v : pvec) : Prop := exists q region fid, make_vector lg q region fid = Ok v.

Lemma mem_spec p ps : mem p ps = true <-> In p ps.
Proof. unfold mem. destruct (in_dec point_eq_dec p ps); split; intros H; auto; discriminate. Qed.
Lemma mem_false p ps : mem p ps = false <-> ~ In p ps.
Proof. unfold mem. destruct (in_dec point_eq_dec p ps); split; intros H; auto; try discriminate; contradiction. Qed.

Lemma disjoint_all_NoDup pieces : disjoint_all pieces = true -> Forall (@NoDup point) pieces -> NoDup (concat pieces).
Proof.
  induction pieces as [|piece pieces IH]; intros H Hn; simpl; [constructor|].
  simpl in H. apply andb_true_iff in H. destruct H as [H1 H2]. inversion Hn; subst.
  apply NoDup_app_intro; [assumption|apply IH; assumption|].
  intros p Hp Hc. apply in_concat in Hc. destruct Hc as [other [Ho Hpo]].
  rewrite forallb_forall in H1. specialize (H1 p Hp). rewrite forallb_forall in H1. specialize (H1 other Ho).
  apply negb_true_iff, mem_false in H1. contradiction.
Qed.
Lemma NoDup_app_r A (l1 l2 : list A) : NoDup (l1 ++ l2) -> NoDup l2.
Proof. induction l1 as [|a l1 IH]; simpl; [auto|]. intros H; inversion H; auto. Qed.
Lemma NoDup_app_l A (l1 l2 : list A) : NoDup (l1 ++ l2) -> NoDup l1.
Proof.
  induction l1 as [|a l1 IH]; simpl; intros H; [constructor|]. inversion H as [|a' l' Hn Hr]; subst. constructor.
  - intros Hin. apply Hn. apply in_or_app. left; exact Hin.
  - apply IH. exact Hr.
Qed.
Lemma NoDup_app_disj A (l1 l2 : list A) x : NoDup (l1 ++ l2) -> In x l1 -> In x l2 -> False.
Proof.
  induction l1 as [|a l1 IH]; simpl; intros H H1 H2; [destruct H1|]. inversion H as [|a' l' Hn Hr]; subst.
  destruct H1 as [->|H1].
  - apply Hn. apply in_or_app. right; exact H2.
  - apply IH; assumption.
Qed.
Lemma NoDup_concat_nth A (ls : list (list A)) i j li lj x : NoDup (concat ls) ->
  nth_error ls i = Some li -> nth_error ls j = Some lj -> In x li -> In x lj -> i = j.
Proof.
  revert i j. induction ls as [|l ls IH]; intros i j H Hi Hj Hxi Hxj; [destruct i; discriminate|].
  cbn [concat] in H. destruct i as [|i], j as [|j]; cbn [nth_error] in Hi, Hj.
  - reflexivity.
  - exfalso. injection Hi as ->. apply (NoDup_app_disj _ _ _ H Hxi). apply in_concat. exists lj.
    split; [eapply nth_error_In; exact Hj|exact Hxj].
  - exfalso. injection Hj as ->. apply (NoDup_app_disj _ _ _ H Hxj). apply in_concat. exists li.
    split; [eapply nth_error_In; exact Hi|exact Hxi].
  - f_equal. apply IH; try assumption. eapply NoDup_app_r. exact H.
Qed.

Lemma constructed_pieces lg v : legion_ok lg -> constructed lg v ->
  NoDup (concat (pieces lg v)) /\ (forall p, In p (concat (pieces lg v)) <-> In p (is_points lg (pv_space v))).
Proof.
  intros [Hs Hp] [q [r [f H]]]. unfold make_vector, oassert in H.
  destruct (is_disjoint lg q) eqn:Ed; [|discriminate]. destruct (is_complete lg q) eqn:Ec; [|discriminate].
  injection H as <-. unfold pieces. cbn [pv_part pv_space]. split.
  - apply disjoint_all_NoDup; [exact Ed|]. apply Forall_forall. intros piece Hin. apply (Hp q piece Hin).
  - intros p. rewrite in_concat. split.
    + intros [piece [Hin Hpp]]. apply (Hp q piece Hin). exact Hpp.
    + intros Hin. unfold is_complete in Ec. rewrite forallb_forall in Ec. specialize (Ec p Hin).
      apply existsb_exists in Ec. destruct Ec as [piece [Hpi Hm]]. exists piece. split; [exact Hpi|]. apply mem_spec. exact Hm.
Qed.
Lemma constructed_perm lg v : legion_ok lg -> constructed lg v ->
  Permutation (concat (pieces lg v)) (is_points lg (pv_space v)).
Proof.
  intros Hl Hc. destruct (constructed_pieces Hl Hc) as [H1 H2]. apply NoDup_Permutation; [exact H1|apply Hl|exact H2].
Qed.

Section Pointwise.
Variable T : Type.
Notation step := (step loc T).
Notation run := (run loc_dec).

(** A family of updates, one per point, writing distinct locations and not reading each other's. *)
Variable f : point -> step.
Hypothesis f_inj : forall p q, tgt (f p) = tgt (f q) -> p = q.

Definition self_contained (pts : list point) : Prop :=
  forall p q, In p pts -> In q pts -> p <> q -> ~ In (tgt (f p)) (rds (f q)).

Lemma run_pointwise pts : NoDup pts -> self_contained pts -> forall s,
  (forall p, In p pts -> run (map f pts) s (tgt (f p)) = fn (f p) (map s (rds (f p)))) /\
  (forall l, (forall p, In p pts -> l <> tgt (f p)) -> run (map f pts) s l = s l).
Proof.
  intros Hn Hsc s. split.
  - revert s Hsc. induction pts as [|q pts IH]; intros s Hsc p Hp; [destruct Hp|].
    inversion Hn; subst. cbn [map]. change (run (f q :: map f pts) s) with (run (map f pts) (exec loc_dec s (f q))).
    assert (Hsc' : self_contained pts) by (intros a b Ha Hb; apply Hsc; right; assumption).
    destruct Hp as [->|Hp].
    + rewrite run_frame.
      * unfold exec. apply upd_same.
      * intros [st [Hin Ht]]. apply in_map_iff in Hin. destruct Hin as [r [<- Hr]]. apply f_inj in Ht. subst r. contradiction.
    + rewrite IH by assumption. f_equal. apply map_ext_in. intros l Hl. unfold exec. apply upd_other. intros E. subst l.
      apply (Hsc q p); [left; reflexivity|right; exact Hp| |exact Hl]. intros E; subst q; contradiction.
  - intros l Hl. apply run_frame. intros [st [Hin Ht]]. apply in_map_iff in Hin. destruct Hin as [r [<- Hr]].
    apply (Hl r Hr). symmetry. exact Ht.
Qed.

Lemma pointwise_non_interfering pieces : NoDup (concat pieces) -> self_contained (concat pieces) ->
  non_interfering (map (map f) pieces).
Proof.
  intros Hn Hsc i j ti tj l Hij Hi Hj [st [Hst Ht]].
  rewrite nth_error_map_some in Hi, Hj.
  destruct (nth_error pieces i) as [pi|] eqn:Ei; [|discriminate].
  destruct (nth_error pieces j) as [pj|] eqn:Ej; [|discriminate].
  injection Hi as <-. injection Hj as <-. apply in_map_iff in Hst. destruct Hst as [p [<- Hp]]. subst l.
  assert (Hpc : In p (concat pieces)) by (apply in_concat; exists pi; split; [eapply nth_error_In; exact Ei|exact Hp]).
  split; intros [st [Hin Hl]]; apply in_map_iff in Hin; destruct Hin as [q [<- Hq]];
  assert (Hqc : In q (concat pieces)) by (apply in_concat; exists pj; split; [eapply nth_error_In; exact Ej|exact Hq]).
  - apply f_inj in Hl. subst q. apply Hij. apply (@NoDup_concat_nth _ pieces i j pi pj p); assumption.
  - assert (Hpq : p <> q). { intros E; subst q. apply Hij. apply (@NoDup_concat_nth _ pieces i j pi pj p); assumption. }
    apply (Hsc p q Hpc Hqc Hpq Hl).
Qed.

Lemma pointwise_effect pieces tr : NoDup (concat pieces) -> self_contained (concat pieces) ->
  interleave (map (map f) pieces) tr -> forall s,
  (forall p, In p (concat pieces) -> run tr s (tgt (f p)) = fn (f p) (map s (rds (f p)))) /\
  (forall l, (forall p, In p (concat pieces) -> l <> tgt (f p)) -> run tr s l = s l).
Proof.
  intros Hn Hsc Hil s. assert (Hni := pointwise_non_interfering _ Hn Hsc).
  assert (E : forall l, run tr s l = run (map f (concat pieces)) s l).
  { intros l. rewrite (interleave_deterministic loc_dec Hil Hni s l). rewrite concat_map. reflexivity. }
  destruct (run_pointwise Hn Hsc s) as [H1 H2]. split.
  - intros p Hp. rewrite E. apply H1. exact Hp.
  - intros l Hl. rewrite E. apply H2. exact Hl.
Qed.
End Pointwise.

Section Facts.
Variable T : Type.
Variable A : arith T.
Variable lg : legion.
Hypothesis Hlg : legion_ok lg.
Notation run := (run loc_dec).

Definition fut (s : store loc T) (n : nat) : T := s (LFut n).

Lemma at_point_inj v p q : at_point v p = at_point v q -> p = q.
Proof. unfold at_point. congruence. Qed.
Lemma firstn_map_app X (l1 l2 : list X) : firstn (length l1) (l1 ++ l2) = l1.
Proof. rewrite firstn_app, Nat.sub_diag, firstn_all. cbn. apply app_nil_r. Qed.
Lemma skipn_map_app X (l1 l2 : list X) : skipn (length l1) (l1 ++ l2) = l2.
Proof. rewrite skipn_app, Nat.sub_diag, skipn_all. reflexivity. Qed.

Lemma with_alpha_app k fv es : with_alpha A (length fv) k (fv ++ es) =
  match get_alpha A fv with Ok alpha => k alpha es | _ => a0 A end.
Proof. unfold with_alpha. rewrite firstn_map_app, skipn_map_app. reflexivity. Qed.

Lemma alpha_ok_get fs : alpha_ok fs = true -> forall s, exists alpha, get_alpha A (map (fut s) fs) = Ok alpha.
Proof.
  unfold alpha_ok. intros H s. apply Nat.leb_le in H.
  destruct fs as [|f0 [|f1 [|f2 [|f3 [|f4 fs]]]]]; cbn in *; try (eexists; reflexivity). lia.
Qed.

(** Effect of an element-wise launch: [g p] is the new value at [p]. *)
Definition updates_vector (y : pvec) (g : point -> T) (s s' : store loc T) : Prop :=
  (forall p, In p (is_points lg (pv_space y)) -> s' (at_point y p) = g p) /\
  (forall l, (forall p, In p (is_points lg (pv_space y)) -> l <> at_point y p) -> s' l = s l).

Lemma pointwise_updates y (f : point -> step loc T) tr : constructed lg y ->
  (forall p, tgt (f p) = at_point y p) -> (forall p q, p <> q -> ~ In (at_point y p) (rds (f q))) ->
  interleave (pointwise lg y f) tr -> forall s,
  updates_vector y (fun p => fn (f p) (map s (rds (f p)))) s (run tr s).
Proof.
  intros Hc Ht Hr Hil s. destruct (constructed_pieces Hlg Hc) as [Hn Hin].
  assert (Hi : forall p q, tgt (f p) = tgt (f q) -> p = q) by (intros p q; rewrite !Ht; apply at_point_inj).
  destruct (@pointwise_effect T f Hi (pieces lg y) tr Hn) with (s := s) as [H1 H2].
  - intros p q _ _ Hpq. rewrite Ht. apply Hr. exact Hpq.
  - exact Hil.
  - split.
    + intros p Hp. rewrite <- (Ht p). apply H1. apply Hin. exact Hp.
    + intros l Hl. apply H2. intros p Hp. rewrite Ht. apply Hl. apply Hin. exact Hp.
Qed.

Lemma in_futs_at fs v p : ~ In (at_point v p) (map (@LFut) fs).
Proof. intros H. apply in_map_iff in H. destruct H as [n [E _]]. discriminate. Qed.

Lemma submit_ok ln ln' : submit ln = Ok ln' -> ln' = ln /\ interfering (ln_reqs (T:=T) ln) = false.
Proof. unfold submit. destruct (interfering (ln_reqs ln)); intros H; [discriminate|]. injection H as <-. auto. Qed.
Lemma oassert_ok B (c : bool) (k : outcome B) b : oassert c k = Ok b -> c = true /\ k = Ok b.
Proof. unfold oassert. destruct c; intros H; [auto|discriminate]. Qed.

Lemma no_alias2 y x p1 p2 P1 P2 : interfering [mk_req (pv_region y) (pv_fid y) P1 p1; mk_req (pv_region x) (pv_fid x) P2 p2] = false ->
  may_write p1 || may_write p2 = true -> forall p q, at_point y p <> at_point x q.
Proof.
  cbn. unfold reqs_alias. cbn. intros H Hw p q E. unfold at_point in E. injection E as E1 E2 _.
  rewrite E1, E2, !Nat.eqb_refl, Hw in H. discriminate.
Qed.

Theorem fill_effect v c ln tr : constructed lg v -> constant_fill lg v c = Ok ln -> interleave (ln_tasks ln) tr ->
  forall s, updates_vector v (fun _ => c) s (run tr s).
Proof.
  intros Hc H Hil s. apply submit_ok in H. destruct H as [-> _]. cbn [ln_tasks] in Hil.
  apply (@pointwise_updates v (fill_step v c) tr Hc); [reflexivity|intros p q _ []|exact Hil].
Qed.
Theorem fill_future_effect v n ln tr : constructed lg v -> constant_fill_future A lg v n = Ok ln -> interleave (ln_tasks ln) tr ->
  forall s, updates_vector v (fun _ => s (LFut n)) s (run tr s).
Proof.
  intros Hc H Hil s. apply submit_ok in H. destruct H as [-> _]. cbn [ln_tasks] in Hil.
  apply (@pointwise_updates v (fill_future_step A v n) tr Hc); [reflexivity|intros p q _ [E|[]]; discriminate|exact Hil].
Qed.
Theorem copy_effect y x ln tr : constructed lg y -> copy A lg y x = Ok ln -> interleave (ln_tasks ln) tr ->
  forall s, updates_vector y (fun p => s (at_point x p)) s (run tr s).
Proof.
  intros Hc H Hil s. apply oassert_ok in H. destruct H as [_ H]. apply submit_ok in H. destruct H as [-> Hni]. cbn [ln_tasks ln_reqs] in *.
  apply (@pointwise_updates y (copy_step A y x) tr Hc); [reflexivity| |exact Hil].
  intros p q _ [E|[]]. refine (@no_alias2 x y READ_ONLY WRITE_DISCARD (pieces lg x) (pieces lg y) Hni eq_refl _ _ E).
Qed.
Theorem scal_effect x fs ln tr : constructed lg x -> scal A lg x fs = Ok ln -> interleave (ln_tasks ln) tr ->
  forall s, exists alpha, get_alpha A (map (fut s) fs) = Ok alpha /\
    updates_vector x (fun p => amul A alpha (s (at_point x p))) s (run tr s).
Proof.
  intros Hc H Hil s. apply oassert_ok in H. destruct H as [Ha H]. apply submit_ok in H. destruct H as [-> Hni]. cbn [ln_tasks ln_reqs] in *.
  destruct (alpha_ok_get _ Ha s) as [alpha Hal]. exists alpha. split; [exact Hal|].
  assert (U := @pointwise_updates x (scal_step A x fs) tr Hc (fun p => eq_refl)).
  destruct (U) with (s := s) as [U1 U2]; [|exact Hil|].
  - intros p q Hpq Hin. cbn [rds scal_step] in Hin. apply in_app_or in Hin. destruct Hin as [Hin|[E|[]]].
    + apply (in_futs_at _ _ _ Hin).
    + apply Hpq. symmetry. apply (at_point_inj E).
  - split; [|exact U2]. intros p Hp. rewrite (U1 p Hp). cbn [fn rds scal_step]. rewrite map_app, map_map.
    change (map (fun x0 : nat => s (LFut x0)) fs) with (map (fut s) fs).
    rewrite <- (map_length (fut s) fs). rewrite with_alpha_app, Hal. reflexivity.
Qed.
Theorem axpy_effect y fs x ln tr : constructed lg y -> axpy A lg y fs x = Ok ln -> interleave (ln_tasks ln) tr ->
  forall s, exists alpha, get_alpha A (map (fut s) fs) = Ok alpha /\
    updates_vector y (fun p => afma A alpha (s (at_point x p)) (s (at_point y p))) s (run tr s).
Proof.
  intros Hc H Hil s. apply oassert_ok in H. destruct H as [_ H]. apply oassert_ok in H. destruct H as [Ha H].
  apply submit_ok in H. destruct H as [-> Hni]. cbn [ln_tasks ln_reqs] in *.
  destruct (alpha_ok_get _ Ha s) as [alpha Hal]. exists alpha. split; [exact Hal|].
  assert (U := @pointwise_updates y (axpy_step A y x fs) tr Hc (fun p => eq_refl)).
  destruct (U) with (s := s) as [U1 U2]; [|exact Hil|].
  - intros p q Hpq Hin. cbn [rds axpy_step] in Hin. apply in_app_or in Hin. destruct Hin as [Hin|[E|[E|[]]]].
    + apply (in_futs_at _ _ _ Hin).
    + symmetry in E. revert E. apply (@no_alias2 y x READ_WRITE READ_ONLY (pieces lg y) (pieces lg x) Hni eq_refl).
    + apply Hpq. symmetry. apply (at_point_inj E).
  - split; [|exact U2]. intros p Hp. rewrite (U1 p Hp). cbn [fn rds axpy_step]. rewrite map_app, map_map.
    change (map (fun x0 : nat => s (LFut x0)) fs) with (map (fut s) fs).
    rewrite <- (map_length (fut s) fs). rewrite with_alpha_app, Hal. reflexivity.
Qed.
Theorem xpay_effect y fs x ln tr : constructed lg y -> xpay A lg y fs x = Ok ln -> interleave (ln_tasks ln) tr ->
  forall s, exists alpha, get_alpha A (map (fut s) fs) = Ok alpha /\
    updates_vector y (fun p => afma A alpha (s (at_point y p)) (s (at_point x p))) s (run tr s).
Proof.
  intros Hc H Hil s. apply oassert_ok in H. destruct H as [_ H]. apply oassert_ok in H. destruct H as [Ha H].
  apply submit_ok in H. destruct H as [-> Hni]. cbn [ln_tasks ln_reqs] in *.
  destruct (alpha_ok_get _ Ha s) as [alpha Hal]. exists alpha. split; [exact Hal|].
  assert (U := @pointwise_updates y (xpay_step A y x fs) tr Hc (fun p => eq_refl)).
  destruct (U) with (s := s) as [U1 U2]; [|exact Hil|].
  - intros p q Hpq Hin. cbn [rds xpay_step] in Hin. apply in_app_or in Hin. destruct Hin as [Hin|[E|[E|[]]]].
    + apply (in_futs_at _ _ _ Hin).
    + symmetry in E. revert E. apply (@no_alias2 y x READ_WRITE READ_ONLY (pieces lg y) (pieces lg x) Hni eq_refl).
    + apply Hpq. symmetry. apply (at_point_inj E).
  - split; [|exact U2]. intros p Hp. rewrite (U1 p Hp). cbn [fn rds xpay_step]. rewrite map_app, map_map.
    change (map (fun x0 : nat => s (LFut x0)) fs) with (map (fut s) fs).
    rewrite <- (map_length (fut s) fs). rewrite with_alpha_app, Hal. reflexivity.
Qed.
End Facts.
