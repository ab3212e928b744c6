(** InitFacts: which storage the tasks of a program read and write, and which of it was written before it is read. *)
From Verif Require Import Base Index Outcome Sched Async Arith Launch Vector VectorFacts LaunchFacts Matrix MatrixSpec MatrixFacts
  MatvecFacts Builder BuilderFacts Planner PlannerFacts.
Set Implicit Arguments.

(** the locations the tasks of a launch really read and write *)
Definition reads_of {T} (ln : launch T) (l : loc) : Prop := exists t st, In t (ln_tasks ln) /\ In st t /\ In l (rds st).
Definition writes_of {T} (ln : launch T) (l : loc) : Prop := exists t st, In t (ln_tasks ln) /\ In st t /\ tgt st = l.
Definition written {T} (lns : list (launch T)) (l : loc) : Prop := exists ln, In ln lns /\ writes_of ln l.

Section Init.
Variable T : Type.
Notation M := (M T).
(** every launch has non-aliasing requirements and reads only what is in [D] or was written by an earlier launch *)
Fixpoint fed (D : loc -> Prop) (lns : list (launch T)) : Prop :=
  match lns with
  | [] => True
  | ln :: rest => interfering (ln_reqs ln) = false /\ (forall l, reads_of ln l -> D l) /\ fed (fun l => D l \/ writes_of ln l) rest
  end.
Lemma fed_mono (lns : list (launch T)) : forall D D' : loc -> Prop, (forall l, D l -> D' l) -> fed D lns -> fed D' lns.
Proof.
  induction lns as [|ln lns IH]; intros D D' H F; [exact I|]. destruct F as [F1 [F2 F3]]. split; [exact F1|]. split; [auto|].
  eapply IH; [|exact F3]. cbn. intros l [Hl|Hl]; auto.
Qed.
Lemma fed_app (l1 l2 : list (launch T)) : forall D, fed D l1 -> fed (fun l => D l \/ written l1 l) l2 -> fed D (l1 ++ l2).
Proof.
  induction l1 as [|ln l1 IH]; intros D F1 F2; cbn [app].
  - eapply fed_mono; [|exact F2]. cbn. intros l [Hl|[ln [[] _]]]; exact Hl.
  - destruct F1 as [A [B C]]. split; [exact A|]. split; [exact B|]. apply IH; [exact C|]. eapply fed_mono; [|exact F2]. cbn.
    intros l [Hl|[ln' [[<-|Hl] Hw]]]; auto. right. exists ln'. auto.
Qed.
Lemma fed_spec (lns : list (launch T)) : forall D, fed D lns -> forall i ln l, nth_error lns i = Some ln -> reads_of ln l ->
  D l \/ exists j ln', j < i /\ nth_error lns j = Some ln' /\ writes_of ln' l.
Proof.
  induction lns as [|a lns IH]; intros D F [|i] ln l Hi Hr; cbn in Hi; try discriminate; destruct F as [F1 [F2 F3]].
  - injection Hi as <-. auto.
  - destruct (IH _ F3 i ln l Hi Hr) as [[Hl|Hl]|[j [ln' [Hj [Hn Hw]]]]]; auto.
    + right. exists 0, a. split; [lia|]. split; [reflexivity|exact Hl].
    + right. exists (S j), ln'. split; [lia|]. split; [exact Hn|exact Hw].
Qed.
Lemma fed_legal (lns : list (launch T)) : forall D, fed D lns -> forall ln, In ln lns -> interfering (ln_reqs ln) = false.
Proof. induction lns as [|a lns IH]; intros D F ln Hin; [destruct Hin|]. destruct F as [F1 [F2 F3]]. destruct Hin as [<-|Hin]; [exact F1|eapply IH; eassumption]. Qed.

(** two memories that agree on [D] agree afterwards on [D] and on everything written *)
Lemma run_agree (D : loc -> Prop) (tr : list (step loc T)) : forall s1 s2 : store loc T,
  (forall st l, In st tr -> In l (rds st) -> D l \/ False) ->
  forall W : loc -> Prop, (forall l, D l \/ W l -> s1 l = s2 l) -> forall l, D l \/ W l \/ (exists st, In st tr /\ tgt st = l) -> run loc_dec tr s1 l = run loc_dec tr s2 l.
Proof.
  induction tr as [|x tr IH]; intros s1 s2 Hr W Ha l Hl.
  - cbn. apply Ha. destruct Hl as [Hl|[Hl|[st [[] _]]]]; auto.
  - unfold run. cbn [fold_left]. apply (IH _ _ (fun st l Hin => Hr st l (or_intror Hin)) (fun l => W l \/ tgt x = l)).
    + intros l' Hl'. unfold exec, upd. destruct (loc_dec l' (tgt x)) as [->|Hne].
      * f_equal. apply map_ext_in. intros k Hk. apply Ha. destruct (Hr x k (or_introl eq_refl) Hk) as [Hd|[]]. auto.
      * apply Ha. destruct Hl' as [Hl'|[Hl'|Hl']]; auto. congruence.
    + destruct Hl as [Hl|[Hl|[st [[<-|Hin] Ht]]]]; auto. right. right. exists st. auto.
Qed.
Lemma effect_agree (lns : list (launch T)) : forall (D : loc -> Prop) s1 s2, fed D lns -> (forall l, D l -> s1 l = s2 l) ->
  forall l, D l \/ written lns l -> effect lns s1 l = effect lns s2 l.
Proof.
  induction lns as [|ln lns IH]; intros D s1 s2 F Ha l Hl.
  - rewrite !effect_nil. apply Ha. destruct Hl as [Hl|[ln [[] _]]]. exact Hl.
  - destruct F as [_ [F2 F3]]. rewrite (effect_cons ln lns s1), (effect_cons ln lns s2). apply (IH (fun l => D l \/ writes_of ln l)); [exact F3| |].
    + intros l' Hl'. rewrite !effect_one. apply (@run_agree D _ _ _) with (W := fun _ => False).
      * intros st k Hst Hk. left. apply F2. apply in_concat in Hst. destruct Hst as [t [Ht Hs]]. exists t, st. auto.
      * intros k [Hk|[]]. auto.
      * destruct Hl' as [Hl'|[t [st [Ht [Hs E]]]]]; auto. right. right. exists st. split; [apply in_concat; eauto|exact E].
    + destruct Hl as [Hl|[ln' [[<-|Hin] Hw]]]; auto. right. exists ln'. auto.
Qed.
Lemma run_frame (tr : list (step loc T)) : forall s l, (forall st, In st tr -> tgt st <> l) -> run loc_dec tr s l = s l.
Proof.
  induction tr as [|x tr IH]; intros s l H; [reflexivity|]. unfold run. cbn [fold_left]. etransitivity; [apply IH; intros st Hs; apply H; right; exact Hs|].
  unfold exec, upd. destruct (loc_dec l (tgt x)) as [->|_]; [|reflexivity]. exfalso. apply (H x (or_introl eq_refl)). reflexivity.
Qed.
Lemma effect_frame (lns : list (launch T)) s l : ~ written lns l -> effect lns s l = s l.
Proof.
  revert s. induction lns as [|ln lns IH]; intros s H; [reflexivity|]. rewrite effect_cons. rewrite IH.
  - rewrite effect_one. apply run_frame. intros st Hst E. apply in_concat in Hst. destruct Hst as [t [Ht Hs]]. apply H. exists ln. split; [left; reflexivity|]. exists t, st. auto.
  - intros [ln' [Hin Hw]]. apply H. exists ln'. split; [right; exact Hin|exact Hw].
Qed.

(** program logic *)
Definition iwp {X} (m : M X) (Q : X -> ist -> (loc -> Prop) -> Prop) (st : ist) (D : loc -> Prop) : Prop :=
  forall x lns st', m st = Ok (x, lns, st') -> fed D lns /\ forall D' : loc -> Prop, (forall l, D l \/ written lns l -> D' l) -> Q x st' D'.
Lemma iwp_conseq X (m : M X) (Q1 Q2 : X -> ist -> (loc -> Prop) -> Prop) st D : iwp m Q1 st D -> (forall x st' D', Q1 x st' D' -> Q2 x st' D') -> iwp m Q2 st D.
Proof. intros H HQ x lns st' E. destruct (H x lns st' E) as [F G]. split; [exact F|]. intros D' Hd. apply HQ, G, Hd. Qed.
Definition upward {X} (Q : X -> ist -> (loc -> Prop) -> Prop) x st (D : loc -> Prop) := forall D' : loc -> Prop, (forall l, D l -> D' l) -> Q x st D'.
Lemma iwp_ret X (x : X) Q st D : upward Q x st D -> iwp (ret x) Q st D.
Proof. intros H y lns st' E. injection E as <- <- <-. split; [exact I|]. intros D' Hd. apply H. auto. Qed.
Lemma iwp_lift X (o : outcome X) Q st D : (forall x, o = Ok x -> upward Q x st D) -> iwp (lift o) Q st D.
Proof. intros H y lns st' E. unfold lift in E. destruct o as [x| | |]; cbn in E; try discriminate. injection E as <- <- <-. split; [exact I|]. intros D' Hd. apply (H x eq_refl). auto. Qed.
Lemma iwp_bind X Y (m : M X) (f : X -> M Y) Q st D : iwp m (fun x st' D' => iwp (f x) Q st' D') st D -> iwp (bind m f) Q st D.
Proof.
  intros H y lns st' E. unfold bind in E. destruct (m st) as [[[x l1] st1]| | |] eqn:E1; cbn [obind] in E; try discriminate.
  destruct (f x st1) as [[[y2 l2] st2]| | |] eqn:E2; cbn [obind] in E; try discriminate. injection E as <- <- <-.
  destruct (H _ _ _ E1) as [F1 G1]. destruct (G1 (fun l => D l \/ written l1 l) (fun l Hl => Hl) _ _ _ E2) as [F2 G2].
  split; [apply fed_app; assumption|]. intros D' Hd. apply G2. intros l [[Hl|[ln [Hin Hw]]]|[ln [Hin Hw]]]; apply Hd; auto; right; exists ln; (split; [apply in_or_app; auto|exact Hw]).
Qed.
Lemma iwp_issue (o : outcome (launch T)) (Q : unit -> ist -> (loc -> Prop) -> Prop) st (D : loc -> Prop) :
  (forall ln, o = Ok ln -> interfering (ln_reqs ln) = false /\ (forall l, reads_of ln l -> D l) /\
     forall D' : loc -> Prop, (forall l, D l \/ writes_of ln l -> D' l) -> Q tt st D') -> iwp (issue o) Q st D.
Proof.
  intros H y lns st' E. unfold issue in E. destruct o as [ln| | |]; cbn in E; try discriminate. injection E as <- <- <-.
  destruct (H ln eq_refl) as [A [B C]]. split; [cbn; auto|]. intros D' Hd. apply C. intros l [Hl|Hl]; apply Hd; auto. right. exists ln. split; [left; reflexivity|exact Hl].
Qed.
Lemma iwp_mfor X (f : X -> M unit) (I : list X -> ist -> (loc -> Prop) -> Prop) (todo : list X) :
  (forall done st (D D' : loc -> Prop), (forall l, D l -> D' l) -> I done st D -> I done st D') ->
  (forall done x rest st D, todo = done ++ x :: rest -> I done st D -> iwp (f x) (fun _ st' D' => I (done ++ [x]) st' D') st D) ->
  forall st D, I [] st D -> iwp (mfor todo f) (fun _ st' D' => I todo st' D') st D.
Proof.
  intros Hm Hstep. assert (G : forall done rest, todo = done ++ rest -> forall st D, I done st D -> iwp (mfor rest f) (fun _ st' D' => I todo st' D') st D).
  { intros done rest. revert done. induction rest as [|x rest IH]; intros done E st D HI.
    - cbn. apply iwp_ret. rewrite app_nil_r in E. rewrite <- E in HI. intros D' Hd. eapply Hm; eassumption.
    - cbn. apply iwp_bind. eapply iwp_conseq; [apply (Hstep done x rest st D E HI)|]. intros u st' D' H. apply (IH (done ++ [x])); [rewrite <- app_assoc; exact E|exact H]. }
  intros st D H. exact (G [] todo eq_refl st D H).
Qed.
Lemma iwp_mfold X Y (f : Y -> X -> M Y) (I : list X -> Y -> ist -> (loc -> Prop) -> Prop) (todo : list X) :
  (forall done acc st (D D' : loc -> Prop), (forall l, D l -> D' l) -> I done acc st D -> I done acc st D') ->
  (forall done x rest acc st D, todo = done ++ x :: rest -> I done acc st D -> iwp (f acc x) (fun acc' st' D' => I (done ++ [x]) acc' st' D') st D) ->
  forall acc st D, I [] acc st D -> iwp (mfold todo acc f) (fun acc' st' D' => I todo acc' st' D') st D.
Proof.
  intros Hm Hstep. assert (G : forall done rest, todo = done ++ rest -> forall acc st D, I done acc st D -> iwp (mfold rest acc f) (fun acc' st' D' => I todo acc' st' D') st D).
  { intros done rest. revert done. induction rest as [|x rest IH]; intros done E acc st D HI.
    - cbn. apply iwp_ret. rewrite app_nil_r in E. rewrite <- E in HI. intros D' Hd. eapply Hm; eassumption.
    - cbn. apply iwp_bind. eapply iwp_conseq; [apply (Hstep done x rest acc st D E HI)|]. intros u st' D' H. apply (IH (done ++ [x])); [rewrite <- app_assoc; exact E|exact H]. }
  intros acc st D H. exact (G [] todo eq_refl acc st D H).
Qed.
Lemma iwp_scalar_task args (f : list T -> T) (Q : nat -> ist -> (loc -> Prop) -> Prop) st (D : loc -> Prop) : (forall n, In n args -> D (LFut n)) ->
  (forall n st' (D' : loc -> Prop), next_region st' = next_region st -> (forall l, D l -> D' l) -> D' (LFut n) -> Q n st' D') -> iwp (scalar_task args f) Q st D.
Proof.
  intros Ha HQ n lns st' E. cbn in E. injection E as <- <- <-. cbn [app]. split.
  - split; [reflexivity|]. split; [|exact I]. intros l [t [x [[<-|[]] [[<-|[]] Hl]]]]. cbn in Hl. apply in_map_iff in Hl. destruct Hl as [k [<- Hk]]. auto.
  - intros D' Hd. apply HQ; [reflexivity|auto|]. apply Hd. right. eexists. split; [left; reflexivity|]. eexists. eexists. split; [left; reflexivity|]. split; [left; reflexivity|reflexivity].
Qed.
End Init.

(** the launches of the vector operations *)
Section Vec.
Variable T : Type.
Variable A : arith T.
Variable lg : legion.
Hypothesis Hlg : legion_ok lg.
(** every element of the vector is in [D] *)
Definition vec_in (D : loc -> Prop) (v : pvec) : Prop := forall p, In p (is_points lg (pv_space v)) -> D (at_point v p).
Lemma pointwise_reads y (f : point -> step loc T) reqs futs r a b l : reads_of (mk_launch (pointwise lg y f) reqs futs r a b) l ->
  exists p, In p (concat (pieces lg y)) /\ In l (rds (f p)).
Proof.
  intros [t [st [Ht [Hs Hl]]]]. cbn [ln_tasks] in Ht. unfold pointwise in Ht. apply in_map_iff in Ht. destruct Ht as [piece [<- Hp]].
  apply in_map_iff in Hs. destruct Hs as [p [<- Hpp]]. exists p. split; [apply in_concat; eauto|exact Hl].
Qed.
Lemma pointwise_writes y (f : point -> step loc T) reqs futs r a b p : In p (concat (pieces lg y)) ->
  writes_of (mk_launch (pointwise lg y f) reqs futs r a b) (tgt (f p)).
Proof.
  intros H. apply in_concat in H. destruct H as [piece [Hp Hpp]]. exists (map f piece), (f p). cbn [ln_tasks]. unfold pointwise.
  split; [apply in_map; exact Hp|]. split; [apply in_map; exact Hpp|reflexivity].
Qed.
Lemma same_layout_space y x : same_layout y x = true -> pv_space x = pv_space y.
Proof. unfold same_layout. rewrite !andb_true_iff. intros [[H _] _]. apply Nat.eqb_eq in H. congruence. Qed.
(** an element-wise launch initialises its destination when its operands are initialised *)
Lemma pointwise_feeds (D : loc -> Prop) y (f : point -> step loc T) reqs futs : constructed lg y -> (forall p, tgt (f p) = at_point y p) ->
  (forall p l, In p (is_points lg (pv_space y)) -> In l (rds (f p)) -> D l) ->
  (forall l, reads_of (mk_launch (pointwise lg y f) reqs futs None [] []) l -> D l) /\
  forall D' : loc -> Prop, (forall l, D l \/ writes_of (mk_launch (pointwise lg y f) reqs futs None [] []) l -> D' l) -> vec_in D' y.
Proof.
  intros Hc Ht Hr. destruct (constructed_pieces Hlg Hc) as [_ Hin]. split.
  - intros l H. apply pointwise_reads in H. destruct H as [p [Hp Hl]]. apply Hin in Hp. eapply Hr; eassumption.
  - intros D' Hd p Hp. apply Hd. right. rewrite <- Ht. apply pointwise_writes. apply Hin. exact Hp.
Qed.
Lemma alpha_reads (D : loc -> Prop) fs l rest : (forall n, In n fs -> D (LFut n)) -> (forall k, In k rest -> D k) -> In l (map LFut fs ++ rest) -> D l.
Proof. intros H1 H2 H. apply in_app_or in H. destruct H as [H|H]; [|auto]. apply in_map_iff in H. destruct H as [n [<- Hn]]. auto. Qed.
End Vec.

(** the planner operations *)
Section Plan.
Variable T : Type.
Variable A : arith T.
Variable lg : legion.
Hypothesis Hlg : legion_ok lg.
Variable red : nat -> list T -> T.
Variable pl : planner T.
Variables n nv : nat.
Hypothesis Hrd : ready lg pl n nv.
Hypothesis Hn : 0 < n.
(** every component of planner vector [vi] is in [D] *)
Definition row_in (D : loc -> Prop) (vi : nat) : Prop := forall i, i < n -> vec_in lg D (vec pl vi i).
Lemma row_in_mono (D D' : loc -> Prop) vi : (forall l, D l -> D' l) -> row_in D vi -> row_in D' vi.
Proof. intros H R i Hi p Hp. apply H. apply R; assumption. Qed.
Lemma vec_in_mono (D D' : loc -> Prop) v : (forall l, D l -> D' l) -> vec_in lg D v -> vec_in lg D' v.
Proof. intros H R p Hp. apply H, R, Hp. Qed.

Lemma iwp_spaces (body : nat -> M T unit) vi (Q : unit -> ist -> (loc -> Prop) -> Prop) st (D : loc -> Prop) : 
  (forall i st' (D' : loc -> Prop), i < n -> (forall l, D l -> D' l) ->
     iwp (body i) (fun _ _ D2 => (forall l, D' l -> D2 l) /\ vec_in lg D2 (vec pl vi i)) st' D') ->
  (forall st' (D' : loc -> Prop), (forall l, D l -> D' l) -> row_in D' vi -> Q tt st' D') -> iwp (for_spaces pl body) Q st D.
Proof.
  intros Hb HQ. unfold for_spaces. apply iwp_bind. rewrite (rd_num Hrd). apply iwp_lift. intros k E. injection E as <-. intros D0 H0.
  eapply iwp_conseq; [apply (@iwp_mfor T nat body (fun done _ D' => (forall l, D l -> D' l) /\ forall i, In i done -> vec_in lg D' (vec pl vi i)))|].
  - intros done st1 D1 D2 Hd [H1 H2]. split; [auto|]. intros i Hi. eapply vec_in_mono; [exact Hd|auto].
  - intros done i rest st1 D1 E [H1 H2]. assert (Hi : In i (seq 0 n)) by (rewrite E; apply in_or_app; right; left; reflexivity). apply in_seq in Hi.
    eapply iwp_conseq; [apply Hb; [lia|exact H1]|]. cbn. intros _ st2 D2 [K1 K2]. split; [auto|]. intros j Hj. apply in_app_or in Hj.
    destruct Hj as [Hj|[<-|[]]]; [eapply vec_in_mono; [exact K1|auto]|exact K2].
  - split; [exact H0|]. intros i [].
  - cbn. intros [] st1 D1 [H1 H2]. apply HQ; [exact H1|]. intros i Hi. apply H2. apply in_seq. lia.
Qed.
Lemma iwp_get vi i (Q : pvec -> ist -> (loc -> Prop) -> Prop) st (D : loc -> Prop) : vi < nv -> i < n -> upward Q (vec pl vi i) st D -> iwp (lift (get_vector pl vi i) : M T pvec) Q st D.
Proof. intros Hv Hi H. apply iwp_lift. intros x E. rewrite (get_vector_vec Hrd Hv Hi) in E. injection E as <-. exact H. Qed.

Lemma iwp_fill v (Q : unit -> ist -> (loc -> Prop) -> Prop) st (D : loc -> Prop) : constructed lg v ->
  (forall D' : loc -> Prop, (forall l, D l -> D' l) -> vec_in lg D' v -> Q tt st D') -> iwp (issue (zero_fill A lg v)) Q st D.
Proof.
  intros Hc HQ. apply iwp_issue. intros ln E. apply submit_ok in E. destruct E as [-> Hi].
  destruct (@pointwise_feeds T lg Hlg D v (fill_step v (a0 A)) [get_requirement lg v WRITE_DISCARD] [] Hc) as [F1 F2]; [reflexivity|intros p l _ []|].
  split; [exact Hi|]. split; [exact F1|]. intros D' Hd. apply HQ; auto.
Qed.
Lemma iwp_zero_fill vi (Q : unit -> ist -> (loc -> Prop) -> Prop) st (D : loc -> Prop) : vi < nv ->
  (forall st' (D' : loc -> Prop), (forall l, D l -> D' l) -> row_in D' vi -> Q tt st' D') -> iwp (pl_zero_fill A lg pl vi) Q st D.
Proof.
  intros Hv HQ. unfold pl_zero_fill. apply iwp_bind. destruct (rd_rows Hrd Hv) as [vs [E L]]. apply iwp_lift. intros x Ex. rewrite E in Ex. injection Ex as <-.
  intros D0 H0. assert (Hvs : forall i v, nth_error vs i = Some v -> i < n /\ v = vec pl vi i).
  { intros i v Hi. assert (Hlt : i < n) by (rewrite <- L; apply nth_error_Some; congruence). split; [exact Hlt|].
    unfold vec, get_vector. rewrite E. cbn [obind]. rewrite Hi. reflexivity. }
  eapply iwp_conseq; [apply (@iwp_mfor T pvec _ (fun done _ D' => (forall l, D l -> D' l) /\ forall v, In v done -> vec_in lg D' v))|].
  - intros done st1 D1 D2 Hd [H1 H2]. split; [auto|]. intros i Hi. eapply vec_in_mono; [exact Hd|auto].
  - intros done v rest st1 D1 Ev [H1 H2]. assert (Hin : nth_error vs (length done) = Some v) by (rewrite Ev, nth_error_app2 by lia; rewrite Nat.sub_diag; reflexivity).
    destruct (Hvs _ _ Hin) as [Hlt Heq]. apply iwp_fill; [rewrite Heq; apply (rd_constructed Hrd); assumption|]. intros D2 K1 K2. split; [auto|].
    intros w Hw. apply in_app_or in Hw. destruct Hw as [Hw|[<-|[]]]; [eapply vec_in_mono; [exact K1|auto]|exact K2].
  - split; [exact H0|]. intros v [].
  - cbn. intros [] st1 D1 [H1 H2]. apply HQ; [exact H1|]. intros i Hi. apply H2.
    destruct (nth_error vs i) as [v|] eqn:En; [|apply nth_error_None in En; lia]. destruct (Hvs _ _ En) as [_ <-]. eapply nth_error_In; exact En.
Qed.
Ltac two vi vj := intros i st1 D1 Hi H1; apply iwp_bind; apply iwp_get; [assumption|assumption|]; intros D2 H2;
  apply iwp_bind; apply iwp_get; [assumption|assumption|]; intros D3 H3.
Lemma other_in (D D' : loc -> Prop) y x p : same_layout y x = true -> vec_in lg D x -> In p (is_points lg (pv_space y)) -> D (at_point x p).
Proof. intros E H Hp. apply H. rewrite (same_layout_space _ _ E). exact Hp. Qed.

Lemma iwp_copy d x (Q : unit -> ist -> (loc -> Prop) -> Prop) st (D : loc -> Prop) : d < nv -> x < nv -> row_in D x ->
  (forall st' (D' : loc -> Prop), (forall l, D l -> D' l) -> row_in D' d -> Q tt st' D') -> iwp (pl_copy A lg pl d x) Q st D.
Proof.
  intros Hd Hx Rx HQ. apply iwp_spaces with (vi := d); [|exact HQ]. two d x. apply iwp_issue. intros ln E. unfold copy in E. apply oassert_ok in E. destruct E as [Hl E].
  apply submit_ok in E. destruct E as [-> Hi']. assert (Hc := rd_constructed Hrd Hd Hi).
  edestruct (@pointwise_feeds T lg Hlg D3) with (f := copy_step A (vec pl d i) (vec pl x i)) as [F1 F2]; [exact Hc|reflexivity| |].
  { intros p l Hp [<-|[]]. apply H3, H2, H1. eapply other_in; eauto. }
  split; [exact Hi'|]. split; [exact F1|]. intros D' Hd'. split; [auto|]. apply F2. exact Hd'.
Qed.
Lemma iwp_scal d a (Q : unit -> ist -> (loc -> Prop) -> Prop) st (D : loc -> Prop) : d < nv -> D (LFut a) -> row_in D d ->
  (forall st' (D' : loc -> Prop), (forall l, D l -> D' l) -> row_in D' d -> Q tt st' D') -> iwp (pl_scal A lg pl d a) Q st D.
Proof.
  intros Hd Ha Rd HQ. apply iwp_spaces with (vi := d); [|exact HQ]. intros i st1 D1 Hi H1. apply iwp_bind. apply iwp_get; [assumption|assumption|]. intros D2 H2.
  apply iwp_issue. intros ln E. unfold scal in E. apply oassert_ok in E. destruct E as [Hl E]. apply submit_ok in E. destruct E as [-> Hi']. assert (Hc := rd_constructed Hrd Hd Hi).
  edestruct (@pointwise_feeds T lg Hlg D2) with (f := scal_step A (vec pl d i) [a]) as [F1 F2]; [exact Hc|reflexivity| |].
  { intros p l Hp. apply alpha_reads; [intros k [<-|[]]; auto|]. intros k [<-|[]]. apply H2, H1. apply Rd; assumption. }
  split; [exact Hi'|]. split; [exact F1|]. intros D' Hd'. split; [auto|]. apply F2. exact Hd'.
Qed.
Lemma iwp_axpy d fs x (Q : unit -> ist -> (loc -> Prop) -> Prop) st (D : loc -> Prop) : d < nv -> x < nv -> (forall k, In k fs -> D (LFut k)) -> row_in D d -> row_in D x ->
  (forall st' (D' : loc -> Prop), (forall l, D l -> D' l) -> row_in D' d -> Q tt st' D') -> iwp (pl_axpy A lg pl d fs x) Q st D.
Proof.
  intros Hd Hx Hf Rd Rx HQ. apply iwp_spaces with (vi := d); [|exact HQ]. two d x. apply iwp_issue. intros ln E. unfold axpy in E. apply oassert_ok in E. destruct E as [Hl E].
  apply oassert_ok in E. destruct E as [_ E]. apply submit_ok in E. destruct E as [-> Hi']. assert (Hc := rd_constructed Hrd Hd Hi).
  edestruct (@pointwise_feeds T lg Hlg D3) with (f := axpy_step A (vec pl d i) (vec pl x i) fs) as [F1 F2]; [exact Hc|reflexivity| |].
  { intros p l Hp. apply alpha_reads; [auto|]. intros k [<-|[<-|[]]]; apply H3, H2, H1; [eapply other_in; eauto|apply Rd; assumption]. }
  split; [exact Hi'|]. split; [exact F1|]. intros D' Hd'. split; [auto|]. apply F2. exact Hd'.
Qed.
Lemma iwp_xpay d fs x (Q : unit -> ist -> (loc -> Prop) -> Prop) st (D : loc -> Prop) : d < nv -> x < nv -> (forall k, In k fs -> D (LFut k)) -> row_in D d -> row_in D x ->
  (forall st' (D' : loc -> Prop), (forall l, D l -> D' l) -> row_in D' d -> Q tt st' D') -> iwp (pl_xpay A lg pl d fs x) Q st D.
Proof.
  intros Hd Hx Hf Rd Rx HQ. apply iwp_spaces with (vi := d); [|exact HQ]. two d x. apply iwp_issue. intros ln E. unfold xpay in E. apply oassert_ok in E. destruct E as [Hl E].
  apply oassert_ok in E. destruct E as [_ E]. apply submit_ok in E. destruct E as [-> Hi']. assert (Hc := rd_constructed Hrd Hd Hi).
  edestruct (@pointwise_feeds T lg Hlg D3) with (f := xpay_step A (vec pl d i) (vec pl x i) fs) as [F1 F2]; [exact Hc|reflexivity| |].
  { intros p l Hp. apply alpha_reads; [auto|]. intros k [<-|[<-|[]]]; apply H3, H2, H1; [eapply other_in; eauto|apply Rd; assumption]. }
  split; [exact Hi'|]. split; [exact F1|]. intros D' Hd'. split; [auto|]. apply F2. exact Hd'.
Qed.
Lemma iwp_component_dot v w i (Q : nat -> ist -> (loc -> Prop) -> Prop) st (D : loc -> Prop) : v < nv -> w < nv -> i < n -> row_in D v -> row_in D w ->
  (forall m st' (D' : loc -> Prop), (forall l, D l -> D' l) -> D' (LFut m) -> Q m st' D') -> iwp (component_dot A lg red pl v w i) Q st D.
Proof.
  intros Hv Hw Hi Rv Rw HQ. unfold component_dot. apply iwp_bind. apply iwp_get; [assumption|assumption|]. intros D2 H2.
  apply iwp_bind. apply iwp_get; [assumption|assumption|]. intros D3 H3. unfold vector_dot. intros m lns st' E. unfold bind, fresh_fut, issue_all, ret in E. cbn [obind] in E.
  destruct (dot A lg red (vec pl v i) (vec pl w i) (next_fut st)) as [l| | |] eqn:Ed; cbn [obind] in E; try discriminate. injection E as <- <- <-. cbn [app]. rewrite app_nil_r.
  unfold dot in Ed. apply oassert_ok in Ed. destruct Ed as [Hl Ed]. unfold obind in Ed. destruct (submit _) as [ln| | |] eqn:Es; try discriminate. injection Ed as <-.
  apply submit_ok in Es. destruct Es as [-> Hi']. destruct (constructed_pieces Hlg (rd_constructed Hrd Hv Hi)) as [_ Hin]. split.
  - split; [exact Hi'|]. split; [|split; [reflexivity|split; [|exact I]]].
    + intros l [t [x [Ht [Hx Hr]]]]. cbn [ln_tasks] in Ht. apply in_map_iff in Ht. destruct Ht as [[c piece] [<- Hc]]. destruct Hx as [<-|[]]. cbn [rds fst snd] in Hr.
      apply in_combine_r in Hc. apply in_flat_map in Hr. destruct Hr as [p [Hp Hr]]. assert (Hpp : In p (is_points lg (pv_space (vec pl v i)))) by (apply Hin; apply in_concat; eauto).
      destruct Hr as [<-|[<-|[]]]; apply H3, H2; [apply Rv; assumption|eapply other_in; eauto].
    + intros l [t [x [[<-|[]] [[<-|[]] Hr]]]]. cbn [rds] in Hr. apply in_map_iff in Hr. destruct Hr as [c [<- Hc]]. right. apply in_seq in Hc.
      destruct (nth_error (pieces lg (vec pl v i)) c) as [piece|] eqn:Ep; [|apply nth_error_None in Ep; lia].
      eexists. eexists. split; [cbn [ln_tasks]; apply in_map_iff; exists (c, piece); split; [reflexivity|]|split; [left; reflexivity|reflexivity]].
      apply (nth_error_In _ c). pose proof (combine_seq_nth_inv _ 0 _ Ep) as K. cbn in K. exact K.
  - intros D' Hd. apply HQ; [auto|]. apply Hd. right. eexists. split; [right; left; reflexivity|]. eexists. eexists. split; [left; reflexivity|]. split; [left; reflexivity|reflexivity].
Qed.
Lemma iwp_dot v w (Q : nat -> ist -> (loc -> Prop) -> Prop) st (D : loc -> Prop) : v < nv -> w < nv -> row_in D v -> row_in D w ->
  (forall m st' (D' : loc -> Prop), (forall l, D l -> D' l) -> D' (LFut m) -> Q m st' D') -> iwp (pl_dot A lg red pl v w) Q st D.
Proof.
  intros Hv Hw Rv Rw HQ. unfold pl_dot. apply iwp_bind. rewrite (rd_num Hrd). apply iwp_lift. intros k E. injection E as <-. intros D0 H0. apply iwp_bind.
  apply iwp_component_dot; try assumption; [eapply row_in_mono; eassumption|eapply row_in_mono; eassumption|]. intros m st1 D1 H1 Hm.
  eapply iwp_conseq; [apply (@iwp_mfold T nat nat _ (fun _ acc _ D' => (forall l, D l -> D' l) /\ D' (LFut acc)))|].
  - intros _ acc st2 D2 D3 H [K1 K2]. auto.
  - intros done i rest acc st2 D2 E [K1 K2]. assert (Hi : In i (seq 1 (n - 1))) by (rewrite E; apply in_or_app; right; left; reflexivity). apply in_seq in Hi.
    apply iwp_bind. apply iwp_component_dot; try assumption; [lia|eapply row_in_mono; eassumption|eapply row_in_mono; eassumption|]. intros d st3 D3 H3 Hd.
    apply iwp_scalar_task; [intros a [<-|[<-|[]]]; auto|]. intros r st4 D4 _ H4 Hr. auto.
  - auto.
  - cbn. intros r st2 D2 [K1 K2]. apply HQ; assumption.
Qed.
Lemma iwp_matvec d s (Q : unit -> ist -> (loc -> Prop) -> Prop) st (D : loc -> Prop) : d < nv -> s < nv -> row_in D s ->
  (forall st' (D' : loc -> Prop), (forall l, D l -> D' l) -> row_in D' d -> Q tt st' D') -> iwp (pl_matvec A lg pl d s) Q st D.
Proof.
  intros Hd Hs Rs HQ. unfold pl_matvec. apply iwp_bind. apply iwp_zero_fill; [assumption|]. intros st1 D1 H1 Rd.
  eapply iwp_conseq; [apply (@iwp_mfor T (pl_matrix T) _ (fun _ _ D' => (forall l, D1 l -> D' l)))|].
  - auto.
  - intros done pm rest st2 D2 E H2. assert (Hin : In pm (pl_mats pl)) by (rewrite E; apply in_or_app; right; left; reflexivity).
    destruct (rd_mats Hrd pm Hin) as [_ [Hdom [Hran [_ Hgh]]]]. apply iwp_bind. apply iwp_get; [assumption|assumption|]. intros D3 H3.
    apply iwp_bind. apply iwp_get; [assumption|assumption|]. intros D4 H4. apply iwp_issue. intros ln El.
    assert (Hc := rd_constructed Hrd Hd Hran). assert (Hg := @matvec_good T A lg Hlg _ _ _ _ _ _ Hc El). destruct Hg as [Hp _].
    assert (Hi : interfering (ln_reqs ln) = false).
    { unfold matvec in El. destruct (_ && _ && _); [|discriminate]. unfold obind in El. destruct (matvec_tasks _ _ _ _ _ _ _); try discriminate. apply submit_ok in El. destruct El as [-> Hi]. exact Hi. }
    split; [exact Hi|]. split; [|intros D5 H5 l Hl; apply H5; left; auto].
    apply matvec_ok in El. destruct El as [_ [_ [_ ->]]]. intros l [t [x [Ht [Hx Hl]]]]. apply In_nth_error in Ht. destruct Ht as [c Hc'].
    destruct (Hp c t x Hc' Hx) as [_ Hr]. specialize (Hr l Hl). destruct l as [r f p|k|k j]; cbn in Hr; [|destruct Hr|destruct Hr].
    destruct Hr as [rq [piece [[<-|[<-|[]]] [<- [<- [_ [Hpc Hpp]]]]]]]; cbn [rq_region rq_fid rq_pieces get_requirement] in *; apply H4, H3, H2.
    + apply (Rd (pm_range pm) Hran p). destruct (constructed_pieces Hlg Hc) as [_ Hi2]. apply Hi2. apply in_concat. exists piece. split; [eapply nth_error_In; exact Hpc|exact Hpp].
    + apply H1. apply (Rs (pm_domain pm) Hdom p). rewrite (vec_space Hrd Hs Hdom). unfold pts. rewrite Hgh in Hpc. apply nth_error_In in Hpc.
      unfold domain_from_kernel, image in Hpc. destruct (pm_matrix pm); apply in_map_iff in Hpc; destruct Hpc as [kp [<- _]]; apply filter_In in Hpp; apply Hpp.
  - auto.
  - cbn. intros [] st2 D2 H2. apply HQ; [auto|]. eapply row_in_mono; eassumption.
Qed.
End Plan.
