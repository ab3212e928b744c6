(** Sched: executions of an index launch (Legion IndexTaskLauncher / execute_index_space, used throughout
    /repo/src/PartitionedVector.cpp, COOMatrix.cpp, CSRMatrix.cpp, StencilGenerator.hpp).
    A point task is a list of atomic element updates; an execution of the launch is ANY interleaving of the
    updates of its point tasks (no ordering between different point tasks is assumed). *)
From Verif Require Import Base.

Section Sched.
Variables L V : Type.
Variable L_eq_dec : forall a b : L, {a = b} + {a <> b}.

(** One update: read the locations [rds], write [fn] of what was read to [tgt]. *)
Record step := mk_step { tgt : L; rds : list L; fn : list V -> V }.

Definition store := L -> V.
Definition upd (s : store) (l : L) (v : V) : store := fun l' => if L_eq_dec l' l then v else s l'.
Definition exec (s : store) (st : step) : store := upd s (tgt st) (fn st (map s (rds st))).
Definition run (tr : list step) (s : store) : store := fold_left exec tr s.

(** All interleavings of a list of sequences. *)
Inductive interleave {A} : list (list A) -> list A -> Prop :=
| il_nil ts : Forall (fun t => t = []) ts -> interleave ts []
| il_cons ts1 a t ts2 tr :
    interleave (ts1 ++ t :: ts2) tr -> interleave (ts1 ++ (a :: t) :: ts2) (a :: tr).

Definition writes (t : list step) (l : L) : Prop := exists st, In st t /\ tgt st = l.
Definition reads (t : list step) (l : L) : Prop := exists st, In st t /\ In l (rds st).

(** Non-interference: no task writes a location another task reads or writes. *)
Definition non_interfering (ts : list (list step)) : Prop :=
  forall i j ti tj l, i <> j -> nth_error ts i = Some ti -> nth_error ts j = Some tj ->
    writes ti l -> ~ writes tj l /\ ~ reads tj l.

Lemma upd_same s l v : upd s l v l = v.
Proof. unfold upd. destruct (L_eq_dec l l); [reflexivity|congruence]. Qed.
Lemma upd_other s l v l' : l' <> l -> upd s l v l' = s l'.
Proof. unfold upd. intros H. destruct (L_eq_dec l' l); [congruence|reflexivity]. Qed.

Lemma run_app t1 t2 s : run (t1 ++ t2) s = run t2 (run t1 s).
Proof. unfold run. apply fold_left_app. Qed.

Lemma run_frame t s l : ~ writes t l -> run t s l = s l.
Proof.
  revert s. induction t as [|st t IH]; intros s H; [reflexivity|].
  change (run (st :: t) s) with (run t (exec s st)). rewrite IH.
  - unfold exec. apply upd_other. intros E. apply H. exists st. split; [left; reflexivity|symmetry; exact E].
  - intros [st' [Hin Ht]]. apply H. exists st'. split; [right; exact Hin|exact Ht].
Qed.

Lemma run_agree t s s' a : (forall l, l <> a -> s l = s' l) -> ~ reads t a ->
  forall l, l <> a -> run t s l = run t s' l.
Proof.
  revert s s'. induction t as [|st t IH]; intros s s' Hag Hr l Hl; [apply Hag; exact Hl|].
  change (run (st :: t) s) with (run t (exec s st)). change (run (st :: t) s') with (run t (exec s' st)).
  apply IH; [| |exact Hl].
  - intros l' Hl'. unfold exec, upd.
    assert (Em : map s (rds st) = map s' (rds st)).
    { apply map_ext_in. intros r Hrr. apply Hag. intros E. subst r. apply Hr.
      exists st. split; [left; reflexivity|exact Hrr]. }
    rewrite Em. destruct (L_eq_dec l' (tgt st)); [reflexivity|apply Hag; exact Hl'].
  - intros [st' [Hin Hrr]]. apply Hr. exists st'. split; [right; exact Hin|exact Hrr].
Qed.

Lemma nth_error_middle {A} (l1 : list A) x l2 : nth_error (l1 ++ x :: l2) (length l1) = Some x.
Proof. induction l1 as [|a l1 IH]; simpl; auto. Qed.
Lemma nth_error_middle_other {A} (l1 : list A) x y l2 j : j <> length l1 ->
  nth_error (l1 ++ x :: l2) j = nth_error (l1 ++ y :: l2) j.
Proof.
  revert j. induction l1 as [|a l1 IH]; intros [|j] H; simpl in *; try reflexivity; try congruence.
  apply IH. congruence.
Qed.

Lemma non_interfering_tail ts1 a t ts2 :
  non_interfering (ts1 ++ (a :: t) :: ts2) -> non_interfering (ts1 ++ t :: ts2).
Proof.
  intros H i j ti tj l Hij Hi Hj Hw.
  set (m := length ts1) in *.
  assert (Gi : exists ti', nth_error (ts1 ++ (a :: t) :: ts2) i = Some ti' /\ (forall st, In st ti -> In st ti')).
  { destruct (Nat.eq_dec i m) as [->|Hne].
    - unfold m in *. rewrite nth_error_middle in Hi. injection Hi as <-. rewrite nth_error_middle.
      eexists. split; [reflexivity|]. intros st Hst. right; exact Hst.
    - rewrite (nth_error_middle_other ts1 (a :: t) t ts2 i Hne). exists ti. split; [exact Hi|auto]. }
  assert (Gj : exists tj', nth_error (ts1 ++ (a :: t) :: ts2) j = Some tj' /\ (forall st, In st tj -> In st tj')).
  { destruct (Nat.eq_dec j m) as [->|Hne].
    - unfold m in *. rewrite nth_error_middle in Hj. injection Hj as <-. rewrite nth_error_middle.
      eexists. split; [reflexivity|]. intros st Hst. right; exact Hst.
    - rewrite (nth_error_middle_other ts1 (a :: t) t ts2 j Hne). exists tj. split; [exact Hj|auto]. }
  destruct Gi as [ti' [Hi' Si]]. destruct Gj as [tj' [Hj' Sj]].
  assert (Hw' : writes ti' l). { destruct Hw as [st [Hst Ht]]. exists st. split; [apply Si; exact Hst|exact Ht]. }
  destruct (H i j ti' tj' l Hij Hi' Hj' Hw') as [Ha Hb]. split.
  - intros [st [Hst Ht]]. apply Ha. exists st. split; [apply Sj; exact Hst|exact Ht].
  - intros [st [Hst Ht]]. apply Hb. exists st. split; [apply Sj; exact Hst|exact Ht].
Qed.

(** Every location that only task [i] may write ends up as if task [i] had run alone. *)
Lemma interleave_task ts tr : interleave ts tr -> non_interfering ts ->
  forall s i ti l, nth_error ts i = Some ti ->
    (forall j tj, j <> i -> nth_error ts j = Some tj -> ~ writes tj l) ->
    run tr s l = run ti s l.
Proof.
  induction 1 as [ts Hnil|ts1 a t ts2 tr Hil IH]; intros Hni s i ti l Hi Hoth.
  - rewrite Forall_forall in Hnil. assert (ti = []) by (apply Hnil; eapply nth_error_In; exact Hi). subst ti. reflexivity.
  - change (run (a :: tr) s) with (run tr (exec s a)).
    set (m := length ts1) in *.
    assert (Hni' := non_interfering_tail _ _ _ _ Hni).
    destruct (Nat.eq_dec i m) as [->|Hne].
    + unfold m in Hi. rewrite nth_error_middle in Hi. injection Hi as <-.
      change (run (a :: t) s) with (run t (exec s a)).
      apply (IH Hni' (exec s a) m t l).
      * apply nth_error_middle.
      * intros j tj Hj Htj. apply (Hoth j tj Hj).
        rewrite <- (nth_error_middle_other ts1 t (a :: t) ts2 j Hj). exact Htj.
    + rewrite (nth_error_middle_other ts1 (a :: t) t ts2 i Hne) in Hi.
      rewrite (IH Hni' (exec s a) i ti l Hi).
      * assert (Hw : writes (a :: t) (tgt a)) by (exists a; split; [left; reflexivity|reflexivity]).
        assert (Hm : nth_error (ts1 ++ (a :: t) :: ts2) m = Some (a :: t)) by apply nth_error_middle.
        assert (Hi2 : nth_error (ts1 ++ (a :: t) :: ts2) i = Some ti).
        { rewrite (nth_error_middle_other ts1 (a :: t) t ts2 i Hne). exact Hi. }
        assert (Hmi : m <> i) by congruence.
        destruct (Hni m i (a :: t) ti (tgt a) Hmi Hm Hi2 Hw) as [_ Hr].
        apply (run_agree ti (exec s a) s (tgt a)).
        -- intros l' Hl'. unfold exec. apply upd_other. exact Hl'.
        -- exact Hr.
        -- intros E. subst l. apply (Hoth m (a :: t) ltac:(congruence) Hm Hw).
      * intros j tj Hj Htj. destruct (Nat.eq_dec j m) as [->|Hjm].
        -- unfold m in Htj. rewrite nth_error_middle in Htj. injection Htj as <-.
           intros [st [Hst Ht]]. apply (Hoth m (a :: t)); [congruence|apply nth_error_middle|].
           exists st. split; [right; exact Hst|exact Ht].
        -- apply (Hoth j tj Hj). rewrite (nth_error_middle_other ts1 (a :: t) t ts2 j Hjm). exact Htj.
Qed.

Lemma interleave_in {A} (ts : list (list A)) tr : interleave ts tr -> forall a, In a tr -> exists t, In t ts /\ In a t.
Proof.
  induction 1 as [ts Hnil|ts1 b t ts2 tr Hil IH]; intros a Ha; [destruct Ha|].
  destruct Ha as [<-|Ha].
  - exists (b :: t). split; [apply in_or_app; right; left; reflexivity|left; reflexivity].
  - destruct (IH a Ha) as [t' [Ht' Ha']]. apply in_app_or in Ht'. destruct Ht' as [Ht'|[<-|Ht']].
    + exists t'. split; [apply in_or_app; left; exact Ht'|exact Ha'].
    + exists (b :: t). split; [apply in_or_app; right; left; reflexivity|right; exact Ha'].
    + exists t'. split; [apply in_or_app; right; right; exact Ht'|exact Ha'].
Qed.

(** Locations no task writes are unchanged. *)
Lemma interleave_frame ts tr : interleave ts tr -> forall s l,
  (forall t, In t ts -> ~ writes t l) -> run tr s l = s l.
Proof.
  intros H s l Hw. apply run_frame. intros [st [Hin Ht]].
  destruct (interleave_in _ _ H st Hin) as [t [Ht1 Ht2]]. apply (Hw t Ht1). exists st. split; assumption.
Qed.

(** Some interleaving always exists: the sequential one. *)
Lemma interleave_concat {A} (ts : list (list A)) : interleave ts (concat ts).
Proof.
  assert (G : forall n (ts0 : list (list A)), Forall (fun t => t = []) ts0 -> forall ts, length (concat ts) = n ->
     interleave (ts0 ++ ts) (concat ts)).
  { induction n as [|n IH]; intros ts0 H0 ts' Hn.
    - destruct (concat ts') eqn:E; [|discriminate]. constructor. apply Forall_app. split; [exact H0|].
      apply Forall_forall. intros t Ht. destruct t as [|a t]; [reflexivity|].
      exfalso. assert (In a (concat ts')) by (apply in_concat; exists (a :: t); split; [exact Ht|left; reflexivity]).
      rewrite E in H. destruct H.
    - revert ts0 H0 Hn. induction ts' as [|t ts' IHt]; intros ts0 H0 Hn; [discriminate|].
      destruct t as [|a t].
      + simpl in *. replace (ts0 ++ [] :: ts') with ((ts0 ++ [[]]) ++ ts') by (rewrite <- app_assoc; reflexivity).
        apply IHt; [|exact Hn]. apply Forall_app. split; [exact H0|constructor; [reflexivity|constructor]].
      + simpl in *. apply il_cons. apply (IH ts0 H0 (t :: ts')). simpl. lia. }
  apply (G (length (concat ts)) [] (Forall_nil _) ts). reflexivity.
Qed.

(** Steps of a run that target a given location. *)
Lemma run_last t s l : forall st t1 t2, t = t1 ++ st :: t2 -> tgt st = l -> ~ writes t2 l ->
  run t s l = fn st (map (run t1 s) (rds st)).
Proof.
  intros st t1 t2 -> Ht Hw. rewrite run_app. change (run (st :: t2) (run t1 s)) with (run t2 (exec (run t1 s) st)).
  rewrite run_frame by exact Hw. unfold exec. rewrite Ht. apply upd_same.
Qed.
End Sched.

Arguments mk_step {L V}.
Arguments tgt {L V}.
Arguments rds {L V}.
Arguments fn {L V}.
Arguments run {L V}.
Arguments exec {L V}.
Arguments upd {L V}.
Arguments writes {L V}.
Arguments reads {L V}.
Arguments non_interfering {L V}.
