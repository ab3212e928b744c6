(** BuilderFacts: a program logic for the application thread ([wp]), and its transfer to every asynchronous
    execution of the launches issued. *)
From Verif Require Import Base Index Outcome Sched Async Arith Launch Vector VectorFacts LaunchFacts Builder.
Set Implicit Arguments.

(** The effect of a sequence of launches executed one after another. *)
Definition effect {T} (lns : list (launch T)) (s : store loc T) : store loc T :=
  run loc_dec (sequential (map (@op_of T) lns)) s.

Section WP.
Variable T : Type.
Notation M := (M T).
Notation store := (store loc T).

Lemma effect_nil s : effect ([] : list (launch T)) s = s.
Proof. reflexivity. Qed.
Lemma effect_app (l1 l2 : list (launch T)) s : effect (l1 ++ l2) s = effect l2 (effect l1 s).
Proof. unfold effect, sequential. rewrite map_app, flat_map_app. apply run_app. Qed.
Lemma effect_one (ln : launch T) s : effect [ln] s = run loc_dec (concat (ln_tasks ln)) s.
Proof. unfold effect, sequential. cbn. rewrite app_nil_r. reflexivity. Qed.
Lemma effect_cons (ln : launch T) lns s : effect (ln :: lns) s = effect lns (effect [ln] s).
Proof. apply (effect_app [ln] lns s). Qed.

(** Every asynchronous execution of good launches has the effect of program order. *)
Theorem executions_equal_effect (lns : list (launch T)) tr : Forall good_launch lns ->
  execution (map (@op_of T) lns) tr -> forall s l, run loc_dec (map snd tr) s l = effect lns s l.
Proof.
  intros Hg Hx s l. unfold effect. apply async_sequential; [| |exact Hx].
  - rewrite Forall_forall in *. intros o Ho. apply in_map_iff in Ho. destruct Ho as [ln [<- Hln]].
    apply privileges_well_declared. apply (Hg ln Hln).
  - rewrite Forall_forall in *. intros o Ho. apply in_map_iff in Ho. destruct Ho as [ln [<- Hln]]. apply (Hg ln Hln).
Qed.

(** Issuing [m] in allocator state [st] succeeds, issues only good launches and, when these run from [s], the
    result satisfies [Q]. *)
Definition wp {X} (m : M X) (Q : X -> ist -> store -> Prop) (st : ist) (s : store) : Prop :=
  exists x lns st', m st = Ok (x, lns, st') /\ Forall good_launch lns /\ Q x st' (effect lns s).

Lemma wp_conseq X (m : M X) (Q1 Q2 : X -> ist -> store -> Prop) st s : wp m Q1 st s ->
  (forall x st' s', Q1 x st' s' -> Q2 x st' s') -> wp m Q2 st s.
Proof. intros [x [lns [st' [H1 [H2 H3]]]]] H. exists x, lns, st'. auto. Qed.
Lemma wp_ret X (x : X) (Q : X -> ist -> store -> Prop) st s : Q x st s -> wp (ret x) Q st s.
Proof. intros H. exists x, [], st. split; [reflexivity|]. split; [constructor|exact H]. Qed.
Lemma wp_bind X Y (m : M X) (f : X -> M Y) (Q : Y -> ist -> store -> Prop) st s :
  wp m (fun x st' s' => wp (f x) Q st' s') st s -> wp (bind m f) Q st s.
Proof.
  intros [x [lns [st1 [H1 [H2 [y [lns2 [st2 [H3 [H4 H5]]]]]]]]]]. exists y, (lns ++ lns2), st2. split.
  - unfold bind. rewrite H1. cbn [obind]. rewrite H3. reflexivity.
  - split; [apply Forall_app; split; assumption|]. rewrite effect_app. exact H5.
Qed.
Lemma wp_lift X (o : outcome X) x (Q : X -> ist -> store -> Prop) st s : o = Ok x -> Q x st s -> wp (lift o) Q st s.
Proof. intros -> H. exists x, [], st. split; [reflexivity|]. split; [constructor|exact H]. Qed.
Lemma wp_massert b (Q : unit -> ist -> store -> Prop) st s : b = true -> Q tt st s -> wp (massert b) Q st s.
Proof. intros -> H. exists tt, [], st. split; [reflexivity|]. split; [constructor|exact H]. Qed.
Lemma wp_issue (o : outcome (launch T)) ln (Q : unit -> ist -> store -> Prop) st s :
  o = Ok ln -> good_launch ln -> Q tt st (effect [ln] s) -> wp (issue o) Q st s.
Proof. intros -> Hg H. exists tt, [ln], st. split; [reflexivity|]. split; [constructor; [exact Hg|constructor]|exact H]. Qed.
Lemma wp_issue_all (o : outcome (list (launch T))) lns (Q : unit -> ist -> store -> Prop) st s :
  o = Ok lns -> Forall good_launch lns -> Q tt st (effect lns s) -> wp (issue_all o) Q st s.
Proof. intros -> Hg H. exists tt, lns, st. split; [reflexivity|]. split; [exact Hg|exact H]. Qed.
Lemma wp_fresh_fut (Q : nat -> ist -> store -> Prop) st s :
  Q (next_fut st) (mk_ist (S (next_fut st)) (next_region st)) s -> wp fresh_fut Q st s.
Proof. intros H. exists (next_fut st), [], (mk_ist (S (next_fut st)) (next_region st)). split; [reflexivity|]. split; [constructor|exact H]. Qed.
Lemma wp_fresh_region (Q : nat -> ist -> store -> Prop) st s :
  Q (next_region st) (mk_ist (next_fut st) (S (next_region st))) s -> wp fresh_region Q st s.
Proof. intros H. exists (next_region st), [], (mk_ist (next_fut st) (S (next_region st))). split; [reflexivity|]. split; [constructor|exact H]. Qed.

(** loops: an invariant indexed by the elements already treated *)
Lemma wp_mfor X (f : X -> M unit) (I : list X -> ist -> store -> Prop) (todo : list X) :
  (forall done x rest st s, todo = done ++ x :: rest -> I done st s ->
     wp (f x) (fun _ st' s' => I (done ++ [x]) st' s') st s) ->
  forall st s, I [] st s -> wp (mfor todo f) (fun _ st' s' => I todo st' s') st s.
Proof.
  intros Hstep. assert (G : forall done rest, todo = done ++ rest -> forall st s, I done st s ->
     wp (mfor rest f) (fun _ st' s' => I todo st' s') st s).
  { intros done rest. revert done. induction rest as [|x rest IH]; intros done E st s HI.
    - cbn. apply wp_ret. rewrite app_nil_r in E. rewrite <- E in HI. exact HI.
    - cbn. apply wp_bind. eapply wp_conseq; [apply (Hstep done x rest st s E HI)|].
      intros u st' s' H. apply (IH (done ++ [x])); [rewrite <- app_assoc; exact E|exact H]. }
  intros st s H. exact (G [] todo eq_refl st s H).
Qed.
Lemma wp_mfold X Y (f : Y -> X -> M Y) (I : list X -> Y -> ist -> store -> Prop) (todo : list X) :
  (forall done x rest acc st s, todo = done ++ x :: rest -> I done acc st s ->
     wp (f acc x) (fun acc' st' s' => I (done ++ [x]) acc' st' s') st s) ->
  forall acc st s, I [] acc st s -> wp (mfold todo acc f) (fun acc' st' s' => I todo acc' st' s') st s.
Proof.
  intros Hstep. assert (G : forall done rest, todo = done ++ rest -> forall acc st s, I done acc st s ->
     wp (mfold rest acc f) (fun acc' st' s' => I todo acc' st' s') st s).
  { intros done rest. revert done. induction rest as [|x rest IH]; intros done E acc st s HI.
    - cbn. apply wp_ret. rewrite app_nil_r in E. rewrite <- E in HI. exact HI.
    - cbn. apply wp_bind. eapply wp_conseq; [apply (Hstep done x rest acc st s E HI)|].
      intros acc' st' s' H. apply (IH (done ++ [x])); [rewrite <- app_assoc; exact E|exact H]. }
  intros acc st s H. exact (G [] todo eq_refl acc st s H).
Qed.

(** Adequacy: a [wp] fact holds of every asynchronous execution of the launches issued.  Stores are compared
    location by location. *)
Theorem wp_executions X (m : M X) (Q : X -> ist -> store -> Prop) st s x lns st' tr :
  wp m Q st s -> m st = Ok (x, lns, st') -> execution (map (@op_of T) lns) tr ->
  exists s', Q x st' s' /\ forall l, run loc_dec (map snd tr) s l = s' l.
Proof.
  intros [x0 [lns0 [st0 [H1 [H2 H3]]]]] H Hx. rewrite H in H1. injection H1 as <- <- <-.
  exists (effect lns s). split; [exact H3|]. intros l. apply executions_equal_effect; assumption.
Qed.

(** ** scalars *)
Lemma scalar_launch_good n args (f : list T -> T) : good_launch (scalar_launch n args f).
Proof.
  split.
  - intros c t st Hc Hst. destruct c as [|[|c]]; try discriminate. cbn in Hc. injection Hc as <-. destruct Hst as [<-|[]].
    cbn. split; [reflexivity|]. intros l Hl. apply in_map_iff in Hl. destruct Hl as [a [<- Ha]]. exact Ha.
  - intros [|i] [|j] ti tj l Hij Hi Hj; try congruence; cbn in *; try (destruct i; discriminate); destruct j; discriminate.
Qed.
Lemma scalar_launch_effect n args (f : list T -> T) s :
  effect [scalar_launch n args f] s = upd loc_dec s (LFut n) (f (map (fun a => s (LFut a)) args)).
Proof. rewrite effect_one. cbn. unfold exec. cbn. rewrite map_map. reflexivity. Qed.

Definition next (st : ist) : ist := mk_ist (S (next_fut st)) (next_region st).
Lemma wp_scalar_task args f (Q : nat -> ist -> store -> Prop) st s :
  (forall s', s' (LFut (next_fut st)) = f (map (fun a => s (LFut a)) args) ->
     (forall l, l <> LFut (next_fut st) -> s' l = s l) -> Q (next_fut st) (next st) s') ->
  wp (scalar_task args f) Q st s.
Proof.
  intros H. unfold scalar_task. apply wp_bind. apply wp_fresh_fut. apply wp_bind.
  eapply wp_issue; [reflexivity|apply scalar_launch_good|]. apply wp_ret. apply H.
  - rewrite scalar_launch_effect. apply upd_same.
  - intros l Hl. rewrite scalar_launch_effect. apply upd_other. exact Hl.
Qed.
End WP.
