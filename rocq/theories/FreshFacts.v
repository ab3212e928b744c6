(** FreshFacts: every future has a single producer. *)
From Verif Require Import Base Index Outcome Sched Async Arith Launch Vector VectorFacts LaunchFacts Builder BuilderFacts Exec ScalarProg.
Set Implicit Arguments.

Section Fresh.
Variable T : Type.
Notation M := (M T).
(** the futures produced by a list of launches *)
Definition results (lns : list (launch T)) : list nat :=
  flat_map (fun ln => match ln_result ln with Some n => [n] | None => [] end) lns.
Definition fresh_results {X} (m : M X) : Prop := forall st x lns st', m st = Ok (x, lns, st') ->
  next_fut st <= next_fut st' /\ NoDup (results lns) /\ forall n, In n (results lns) -> next_fut st <= n < next_fut st'.

Lemma fr_ret X (x : X) : fresh_results (ret x).
Proof. intros st y lns st' H. injection H as <- <- <-. split; [lia|]. split; [constructor|intros n []]. Qed.
Lemma fr_lift X (o : outcome X) : fresh_results (lift o).
Proof.
  intros st y lns st' H. unfold lift in H. destruct o; cbn in H; try discriminate. injection H as <- <- <-.
  split; [lia|]. split; [constructor|intros n []].
Qed.
Lemma fr_massert b : fresh_results (massert b).
Proof. intros st y lns st' H. unfold massert in H. destruct b; [|discriminate]. injection H as <- <- <-. split; [lia|]. split; [constructor|intros n []]. Qed.
Lemma fr_bind X Y (m : M X) (f : X -> M Y) : fresh_results m -> (forall x, fresh_results (f x)) -> fresh_results (bind m f).
Proof.
  intros Hm Hf st y lns st' H. unfold bind in H. destruct (m st) as [[[x l1] st1]| | |] eqn:E1; cbn [obind] in H; try discriminate.
  destruct (f x st1) as [[[y2 l2] st2]| | |] eqn:E2; cbn [obind] in H; try discriminate. injection H as <- <- <-.
  destruct (Hm _ _ _ _ E1) as [A1 [A2 A3]]. destruct (Hf x _ _ _ _ E2) as [B1 [B2 B3]]. split; [lia|].
  unfold results in *. rewrite flat_map_app. split.
  - apply NoDup_app_intro; auto. intros n Hn1 Hn2. specialize (A3 n Hn1). specialize (B3 n Hn2). lia.
  - intros n Hn. apply in_app_or in Hn. destruct Hn as [Hn|Hn]; [specialize (A3 n Hn)|specialize (B3 n Hn)]; lia.
Qed.
Lemma fr_issue (o : outcome (launch T)) : (forall ln, o = Ok ln -> ln_result ln = None) -> fresh_results (issue o).
Proof.
  intros H0 st y lns st' H. unfold issue in H. destruct o as [ln| | |]; cbn in H; try discriminate. injection H as <- <- <-.
  unfold results. cbn [flat_map]. rewrite (H0 ln eq_refl). split; [lia|]. split; [constructor|intros n []].
Qed.
Lemma fr_mfor X (l : list X) (f : X -> M unit) : (forall x, fresh_results (f x)) -> fresh_results (mfor l f).
Proof. intros H. induction l as [|x l IH]; [apply fr_ret|]. cbn. apply fr_bind; [apply H|intros _; exact IH]. Qed.
Lemma fr_mfold X Y (l : list X) (f : Y -> X -> M Y) : (forall a x, fresh_results (f a x)) -> forall acc, fresh_results (mfold l acc f).
Proof. intros H. induction l as [|x l IH]; intros acc; [apply fr_ret|]. cbn. apply fr_bind; [apply H|intros a; apply IH]. Qed.
Lemma fr_scalar_task args f : fresh_results (@scalar_task T args f).
Proof.
  intros st y lns st' H. cbn in H. injection H as <- <- <-. cbn. split; [lia|]. split; [constructor; [intros []|constructor]|].
  intros n [<-|[]]. lia.
Qed.

(** Reading a future as soon as its producer has finished: the value does not change any more. *)
Theorem early_read_final X (m : M X) st x lns st' : fresh_results m -> m st = Ok (x, lns, st') -> Forall good_launch lns ->
  forall tr rem i ln n, partial_run (map (@op_of T) lns) (map (@ln_tasks T) lns) tr rem ->
  nth_error lns i = Some ln -> ln_result ln = Some n -> (forall ts, nth_error rem i = Some ts -> finished ts) ->
  forall s s', launches_end lns s s' -> run loc_dec (map snd tr) s (LFut n) = s' (LFut n).
Proof.
  intros Hf Hm Hg tr rem i ln n Hr Hi Hn Hfin s s' He. rewrite (launches_end_effect Hg He). unfold effect.
  apply ready_value_is_final with (rem := rem) (i := i).
  - apply Forall_forall. intros o Ho. apply in_map_iff in Ho. destruct Ho as [l0 [<- Hl]]. apply privileges_well_declared.
    rewrite Forall_forall in Hg. apply (Hg l0 Hl).
  - apply Forall_forall. intros o Ho. apply in_map_iff in Ho. destruct Ho as [l0 [<- Hl]].
    rewrite Forall_forall in Hg. apply (Hg l0 Hl).
  - rewrite map_map. exact Hr.
  - exact Hfin.
  - intros j o Hj Ho Hw. rewrite nth_error_map_some in Ho. destruct (nth_error lns j) as [l0|] eqn:El; [|discriminate].
    cbn in Ho. injection Ho as <-. cbn in Hw. destruct (Hf _ _ _ _ Hm) as [_ [Hnd _]]. unfold results in Hnd.
    apply Hj. clear - Hnd Hi El Hn Hw.
    revert i j Hi El. induction lns as [|a l IH]; intros i j Hi Hj; [destruct i; discriminate|].
    assert (In1 : forall k b, nth_error l k = Some b -> ln_result b = Some n -> In n (flat_map (fun ln => match ln_result ln with Some n => [n] | None => [] end) l)).
    { intros k b Hk Hb. apply in_flat_map. exists b. split; [eapply nth_error_In; exact Hk|]. rewrite Hb. left; reflexivity. }
    cbn [flat_map] in Hnd. destruct i as [|i], j as [|j]; cbn in Hi, Hj.
    + reflexivity.
    + exfalso. injection Hi as ->. rewrite Hn in Hnd. inversion Hnd as [|? ? Hni _]; subst. apply Hni. apply (In1 j l0 Hj Hw).
    + exfalso. injection Hj as ->. rewrite Hw in Hnd. inversion Hnd as [|? ? Hni _]; subst. apply Hni. apply (In1 i ln Hi Hn).
    + f_equal. apply IH; [|exact Hi|exact Hj]. eapply NoDup_app_r. exact Hnd.
Qed.

Lemma issue_exp_fresh (A : arith T) env e : fresh_results (issue_exp A env e).
Proof.
  induction e as [x|c|e IH|e IH|e1 IH1 e2 IH2|e1 IH1 e2 IH2|e1 IH1 e2 IH2|e1 IH1 e2 IH2|e IH|e IH]; cbn [issue_exp];
    repeat first [apply fr_ret | apply fr_scalar_task | apply fr_bind | assumption | intros ?].
Qed.
Lemma issue_prog_fresh (A : arith T) p : forall env, fresh_results (issue_prog A env p).
Proof. induction p as [|a p IH]; intros env; cbn [issue_prog]; [apply fr_ret|]. apply fr_bind; [apply issue_exp_fresh|intros f; apply IH]. Qed.
End Fresh.
