(** Async: Legion's deferred execution of a sequence of operations (trusted Legion contract).
    The application thread issues operations (task launches, index launches, fills, copies) in program order
    and goes on at once; the runtime runs them later.  Two operations are ordered only if their DECLARED
    region requirements / futures conflict (privileges passed to add_region_requirement / add_future, e.g.
    /repo/src/PartitionedVector.cpp:225-227, /repo/src/COOMatrix.cpp:169-188, /repo/src/Scalar.cpp:32-33).
    Everything else may overlap: an execution is any interleaving of the atomic element updates of all point
    tasks of all operations in which an operation makes a step only when every EARLIER CONFLICTING operation
    has finished.  (Legion may order more than that; it never orders less.) *)
From Verif Require Import Base Sched PartitionSpec.
Set Implicit Arguments.

Section Async.
Variables L V : Type.
Variable L_eq_dec : forall a b : L, {a = b} + {a <> b}.
Notation step := (step L V).

(** An operation: the update sequences of its point tasks, and the locations it declares to read and write. *)
Record op := mk_op { o_tasks : list (list step); o_reads : L -> Prop; o_writes : L -> Prop }.

(** Declared conflict between two operations (some location is written by one and accessed by the other). *)
Definition conflict (a b : op) : Prop :=
  exists l, (o_writes a l /\ (o_reads b l \/ o_writes b l)) \/ (o_reads a l /\ o_writes b l).

(** The tasks of an operation only touch what the operation declares. *)
Definition well_declared (o : op) : Prop :=
  forall t st, In t (o_tasks o) -> In st t ->
    o_writes o (tgt st) /\ forall l, In l (rds st) -> o_reads o l \/ o_writes o l.

Definition finished (ts : list (list step)) : Prop := Forall (fun t => t = []) ts.

(** [partial_run ops rem tr rem']: starting with the task remainders [rem] (one list of tasks per operation)
    the runtime performed the updates [tr] (tagged with the number of their operation) and the remainders are
    now [rem'].  Rule [pr_step]: operation number [length pre] makes the next step of one of its tasks; every
    earlier operation that conflicts with it has finished. *)
Inductive partial_run (ops : list op) : list (list (list step)) -> list (nat * step) -> list (list (list step)) -> Prop :=
| pr_stop rem : partial_run ops rem [] rem
| pr_step pre ts1 a t ts2 post tr rem' :
    (forall i oi oj tsi, i < length pre -> nth_error ops i = Some oi -> nth_error ops (length pre) = Some oj ->
        conflict oi oj -> nth_error pre i = Some tsi -> finished tsi) ->
    partial_run ops (pre ++ (ts1 ++ t :: ts2) :: post) tr rem' ->
    partial_run ops (pre ++ (ts1 ++ (a :: t) :: ts2) :: post) ((length pre, a) :: tr) rem'.

(** A complete execution of the operations [ops], as the sequence of updates it performs. *)
Definition execution (ops : list op) (tr : list (nat * step)) : Prop :=
  exists rem, partial_run ops (map o_tasks ops) tr rem /\ Forall finished rem.

(** Program order: the operations one after another, the tasks of each one after another. *)
Definition sequential (ops : list op) : list step := flat_map (fun o => concat (o_tasks o)) ops.

Definition proj (i : nat) (tr : list (nat * step)) : list step :=
  map snd (filter (fun x => fst x =? i) tr).

(** ---- facts about stores ---- *)
Notation run := (run L_eq_dec).
Notation exec := (exec L_eq_dec).
Lemma exec_ext s s' (st : step) : (forall l, s l = s' l) -> forall l, exec s st l = exec s' st l.
Proof.
  intros H l. unfold Sched.exec, upd. rewrite (map_ext _ _ H). destruct (L_eq_dec l (tgt st)); [reflexivity|apply H].
Qed.
Lemma run_ext (tr : list step) s s' : (forall l, s l = s' l) -> forall l, run tr s l = run tr s' l.
Proof.
  revert s s'. induction tr as [|st tr IH]; intros s s' H l; [apply H|].
  change (run (st :: tr) s) with (run tr (exec s st)). change (run (st :: tr) s') with (run tr (exec s' st)).
  apply IH. apply exec_ext. exact H.
Qed.

Definition indep (a b : step) : Prop :=
  tgt a <> tgt b /\ ~ In (tgt a) (rds b) /\ ~ In (tgt b) (rds a).

Lemma map_upd_other (s : L -> V) l v ls : ~ In l ls -> map (upd L_eq_dec s l v) ls = map s ls.
Proof.
  intros H. apply map_ext_in. intros r Hr. apply upd_other. intros E; subst r; contradiction.
Qed.
Lemma exec_swap a b s : indep a b -> forall l, exec (exec s a) b l = exec (exec s b) a l.
Proof.
  intros [Ht [Hab Hba]] l. unfold Sched.exec at 1 3.
  unfold Sched.exec. rewrite (map_upd_other s _ _ _ Hab), (map_upd_other s _ _ _ Hba).
  unfold upd. destruct (L_eq_dec l (tgt b)), (L_eq_dec l (tgt a)); congruence.
Qed.
Lemma run_swap_list a F : (forall b, In b F -> indep a b) -> forall G s l,
  run (a :: F ++ G) s l = run (F ++ a :: G) s l.
Proof.
  induction F as [|b F IH]; intros H G s l; [reflexivity|].
  change (run (a :: (b :: F) ++ G) s) with (run (F ++ G) (exec (exec s a) b)).
  change (run ((b :: F) ++ a :: G) s) with (run (F ++ a :: G) (exec s b)).
  rewrite <- (IH (fun b' Hb' => H b' (or_intror Hb')) G (exec s b) l).
  change (run (a :: F ++ G) (exec s b)) with (run (F ++ G) (exec (exec s b) a)).
  apply run_ext. intros l'. apply exec_swap. apply H. left; reflexivity.
Qed.

Lemma ForallOrdPairs_filter A (R : A -> A -> Prop) (f : A -> bool) l :
  ForallOrdPairs R l -> ForallOrdPairs R (filter f l).
Proof.
  induction 1 as [|a l Ha H IH]; simpl; [constructor|]. destruct (f a); [|exact IH].
  constructor; [|exact IH]. rewrite Forall_forall in *. intros x Hx. apply filter_In in Hx. apply Ha. tauto.
Qed.

Definition ordered (tr : list (nat * step)) : Prop :=
  ForallOrdPairs (fun a b => fst b < fst a -> indep (snd a) (snd b)) tr.

Lemma move_front k tr : ordered tr -> (forall a, In a tr -> k <= fst a) -> forall s l,
  run (map snd tr) s l = run (proj k tr ++ map snd (filter (fun x => negb (fst x =? k)) tr)) s l.
Proof.
  unfold proj. induction 1 as [|a tr Ha H IH]; intros Hk s l; [reflexivity|].
  assert (Hk' : forall a0, In a0 tr -> k <= fst a0) by (intros x Hx; apply Hk; right; exact Hx).
  cbn [map filter]. change (run (snd a :: map snd tr) s) with (run (map snd tr) (exec s (snd a))).
  rewrite (IH Hk'). destruct (Nat.eqb_spec (fst a) k) as [E|E]; cbn [negb map app].
  - reflexivity.
  - set (F := map snd (filter (fun x => fst x =? k) tr)). set (G := map snd (filter (fun x => negb (fst x =? k)) tr)).
    change (run (F ++ G) (exec s (snd a)) l) with (run (snd a :: F ++ G) s l).
    apply run_swap_list. intros b Hb. unfold F in Hb. apply in_map_iff in Hb. destruct Hb as [x [<- Hx]].
    apply filter_In in Hx. destruct Hx as [Hx Ek]. apply Nat.eqb_eq in Ek.
    rewrite Forall_forall in Ha. apply Ha; [exact Hx|]. specialize (Hk a (or_introl eq_refl)). lia.
Qed.

Lemma proj_filter_other i k tr : i <> k -> proj i (filter (fun x => negb (fst x =? k)) tr) = proj i tr.
Proof.
  intros H. unfold proj. f_equal. induction tr as [|a tr IH]; cbn [filter]; [reflexivity|].
  destruct (Nat.eqb_spec (fst a) k) as [E|E]; cbn [negb].
  - destruct (Nat.eqb_spec (fst a) i) as [E2|E2]; [congruence|]. exact IH.
  - cbn [filter]. destruct (fst a =? i); [f_equal; exact IH|exact IH].
Qed.

Lemma ordered_run n k tr : ordered tr -> (forall a, In a tr -> k <= fst a < k + n) -> forall s l,
  run (map snd tr) s l = run (flat_map (fun i => proj i tr) (seq k n)) s l.
Proof.
  revert k tr. induction n as [|n IH]; intros k tr Ho Hr s l.
  - destruct tr as [|a tr]; [reflexivity|]. specialize (Hr a (or_introl eq_refl)). lia.
  - rewrite (@move_front k tr Ho) by (intros a Ha; specialize (Hr a Ha); lia).
    cbn [seq flat_map]. rewrite !run_app. rewrite (IH (S k)).
    + assert (E : flat_map (fun i => proj i (filter (fun x => negb (fst x =? k)) tr)) (seq (S k) n)
               = flat_map (fun i => proj i tr) (seq (S k) n)).
      { rewrite !flat_map_concat_map. f_equal. apply map_ext_in. intros i Hi. apply in_seq in Hi.
        apply proj_filter_other. lia. }
      rewrite E. reflexivity.
    + apply ForallOrdPairs_filter. exact Ho.
    + intros a Ha. apply filter_In in Ha. destruct Ha as [Ha Hn]. specialize (Hr a Ha).
      apply negb_true_iff, Nat.eqb_neq in Hn. lia.
Qed.

(** ---- from the operational semantics to orderedness ---- *)
(** The invariant of [partial_run]: remaining tasks are suffixes of the declared ones. *)
Definition rem_ok (ops : list op) (rem : list (list (list step))) : Prop :=
  Forall2 (fun o ts => forall t st, In t ts -> In st t ->
     o_writes o (tgt st) /\ forall l, In l (rds st) -> o_reads o l \/ o_writes o l) ops rem.

Lemma rem_ok_init ops : Forall well_declared ops -> rem_ok ops (map o_tasks ops).
Proof.
  unfold rem_ok. induction 1 as [|o ops Ho H IH]; simpl; constructor; [exact Ho|exact IH].
Qed.
Lemma rem_ok_length ops rem : rem_ok ops rem -> length ops = length rem.
Proof. unfold rem_ok. induction 1; simpl; congruence. Qed.
Lemma rem_ok_step ops pre ts1 a t ts2 post :
  rem_ok ops (pre ++ (ts1 ++ (a :: t) :: ts2) :: post) -> rem_ok ops (pre ++ (ts1 ++ t :: ts2) :: post).
Proof.
  unfold rem_ok. intros H. apply Forall2_app_inv_r in H. destruct H as [o1 [o2 [H1 [H2 ->]]]].
  inversion H2 as [|o ts o2' post' Ho Hp]; subst. apply Forall2_app; [exact H1|]. constructor; [|exact Hp].
  intros t' st Ht Hst. apply in_app_or in Ht. destruct Ht as [Ht|[<-|Ht]].
  - apply (Ho t'); [apply in_or_app; left; exact Ht|exact Hst].
  - apply (Ho (a :: t)); [apply in_or_app; right; left; reflexivity|right; exact Hst].
  - apply (Ho t'); [apply in_or_app; right; right; exact Ht|exact Hst].
Qed.
Lemma partial_run_rem_ok ops rem tr rem' : partial_run ops rem tr rem' -> rem_ok ops rem -> rem_ok ops rem'.
Proof.
  induction 1 as [rem|pre ts1 a t ts2 post tr rem' Hc H IH]; intros H0; [exact H0|].
  apply IH. eapply rem_ok_step. exact H0.
Qed.
Lemma rem_ok_nth ops rem i o ts : rem_ok ops rem -> nth_error ops i = Some o -> nth_error rem i = Some ts ->
  forall t st, In t ts -> In st t ->
     o_writes o (tgt st) /\ forall l, In l (rds st) -> o_reads o l \/ o_writes o l.
Proof.
  intros H. revert i. induction H as [|o' ts' ops' rem' Ho H IH]; intros [|i] Ei Er; simpl in *; try discriminate.
  - injection Ei as <-. injection Er as <-. exact Ho.
  - eapply IH; eassumption.
Qed.

Lemma partial_run_in ops rem tr rem' : partial_run ops rem tr rem' ->
  forall j a, In (j, a) tr -> exists ts t, nth_error rem j = Some ts /\ In t ts /\ In a t.
Proof.
  induction 1 as [rem|pre ts1 a t ts2 post tr rem' Hc H IH]; intros j b Hin; [destruct Hin|].
  destruct Hin as [E|Hin].
  - injection E as <- <-. exists (ts1 ++ (a :: t) :: ts2), (a :: t).
    split; [rewrite nth_error_app2 by lia; rewrite Nat.sub_diag; reflexivity|].
    split; [apply in_or_app; right; left; reflexivity|left; reflexivity].
  - destruct (IH j b Hin) as [ts [t' [Hn [Ht Hb]]]].
    destruct (Nat.eq_dec j (length pre)) as [->|Hne].
    + rewrite nth_error_middle in Hn. injection Hn as <-.
      rewrite nth_error_middle. eexists. apply in_app_or in Ht. destruct Ht as [Ht|[<-|Ht]].
      * exists t'. split; [reflexivity|]. split; [apply in_or_app; left; exact Ht|exact Hb].
      * exists (a :: t). split; [reflexivity|]. split; [apply in_or_app; right; left; reflexivity|right; exact Hb].
      * exists t'. split; [reflexivity|]. split; [apply in_or_app; right; right; exact Ht|exact Hb].
    + exists ts, t'. split; [|split; assumption]. rewrite <- Hn.
      apply nth_error_middle_other. exact Hne.
Qed.

Lemma partial_run_ordered ops rem tr rem' : partial_run ops rem tr rem' -> rem_ok ops rem -> ordered tr.
Proof.
  induction 1 as [rem|pre ts1 a t ts2 post tr rem' Hc H IH]; intros Hok; [constructor|].
  constructor; [|apply IH; eapply rem_ok_step; exact Hok].
  apply Forall_forall. intros [i b] Hin Hlt. cbn [fst snd] in *.
  (* b belongs to an earlier operation i, still unfinished: so i and length pre do not conflict *)
  destruct (partial_run_in H i b Hin) as [ts [t' [Hn [Ht Hb]]]].
  assert (Hn' : nth_error pre i = Some ts) by (rewrite nth_error_app1 in Hn by exact Hlt; exact Hn).
  assert (Hlen := rem_ok_length Hok). rewrite app_length in Hlen. cbn [length] in Hlen.
  destruct (nth_error ops i) as [oi|] eqn:Ei; [|apply nth_error_None in Ei; lia].
  destruct (nth_error ops (length pre)) as [oj|] eqn:Ej; [|apply nth_error_None in Ej; lia].
  assert (Hnc : ~ conflict oi oj).
  { intros Hcf. specialize (Hc i oi oj ts Hlt Ei eq_refl Hcf Hn'). unfold finished in Hc. rewrite Forall_forall in Hc.
    specialize (Hc t' Ht). subst t'. destruct Hb. }
  assert (Hi : o_writes oi (tgt b) /\ forall l, In l (rds b) -> o_reads oi l \/ o_writes oi l).
  { apply (@rem_ok_nth ops _ i oi ts Hok Ei) with (t := t'); [|exact Ht|exact Hb].
    rewrite nth_error_app1 by exact Hlt. exact Hn'. }
  assert (Hj : o_writes oj (tgt a) /\ forall l, In l (rds a) -> o_reads oj l \/ o_writes oj l).
  { apply (@rem_ok_nth ops _ (length pre) oj (ts1 ++ (a :: t) :: ts2) Hok Ej) with (t := a :: t).
    - apply nth_error_middle.
    - apply in_or_app; right; left; reflexivity.
    - left; reflexivity. }
  destruct Hi as [Hiw Hir]. destruct Hj as [Hjw Hjr]. repeat split.
  - intros E. apply Hnc. exists (tgt b). left. split; [exact Hiw|right; rewrite <- E; exact Hjw].
  - intros Hin2. apply Hnc. exists (tgt a). destruct (Hir _ Hin2) as [Hr|Hw].
    + right. split; assumption.
    + left. split; [exact Hw|right; exact Hjw].
  - intros Hin2. apply Hnc. exists (tgt b). left. split; [exact Hiw|]. exact (Hjr _ Hin2).
Qed.

Lemma partial_run_interleave ops rem tr rem' : partial_run ops rem tr rem' -> Forall finished rem' ->
  forall i ts, nth_error rem i = Some ts -> interleave ts (proj i tr).
Proof.
  unfold proj. induction 1 as [rem|pre ts1 a t ts2 post tr rem' Hc H IH]; intros Hf i ts Hi.
  - cbn. constructor. rewrite Forall_forall in Hf. apply Hf. eapply nth_error_In. exact Hi.
  - cbn [filter fst]. destruct (Nat.eqb_spec (length pre) i) as [<-|Hne].
    + rewrite nth_error_middle in Hi. injection Hi as <-. cbn [map snd]. apply il_cons.
      apply (IH Hf). apply nth_error_middle.
    + apply (IH Hf). rewrite <- Hi. apply nth_error_middle_other. congruence.
Qed.

Lemma partial_run_tags ops rem tr rem' : partial_run ops rem tr rem' ->
  forall a, In a tr -> fst a < length rem.
Proof.
  intros H [j a] Hin. destruct (partial_run_in H j a Hin) as [ts [t [Hn _]]].
  apply nth_error_Some. cbn [fst]. rewrite Hn. discriminate.
Qed.

(** Every execution has the effect of running the operations in program order, the tasks of each operation
    interleaved in some way. *)
Theorem async_program_order ops tr : Forall well_declared ops -> execution ops tr ->
  exists trs, Forall2 (fun o t => interleave (o_tasks o) t) ops trs /\
    forall s l, run (map snd tr) s l = run (concat trs) s l.
Proof.
  intros Hwd [rem [Hrun Hfin]]. exists (map (fun i => proj i tr) (seq 0 (length ops))). split.
  - apply Forall2_nth_intro. 1: rewrite map_length, seq_length; reflexivity.
    intros i o t Ho Ht. rewrite nth_error_map_some in Ht.
    assert (Hi : i < length ops) by (apply nth_error_Some; rewrite Ho; discriminate).
    rewrite (@nth_error_nth' nat _ i 0) in Ht by (rewrite seq_length; exact Hi).
    rewrite seq_nth in Ht by exact Hi. cbn in Ht. injection Ht as <-.
    apply (partial_run_interleave Hrun Hfin). rewrite nth_error_map_some, Ho. reflexivity.
  - intros s l. rewrite <- flat_map_concat_map. apply ordered_run.
    + eapply partial_run_ordered; [exact Hrun|]. apply rem_ok_init. exact Hwd.
    + intros a Ha. apply (partial_run_tags Hrun) in Ha. rewrite map_length in Ha. lia.
Qed.

(** No deadlock: any partial execution can be completed. *)
Lemma partial_run_trans ops r1 t1 r2 : partial_run ops r1 t1 r2 -> forall t2 r3,
  partial_run ops r2 t2 r3 -> partial_run ops r1 (t1 ++ t2) r3.
Proof.
  induction 1 as [rem|pre ts1 a t ts2 post tr rem' Hc H IH]; intros t2 r3 H2; [exact H2|].
  cbn [app]. apply pr_step; [exact Hc|]. apply IH. exact H2.
Qed.
Definition work (rem : list (list (list step))) : nat := length (concat (concat rem)).
Lemma finished_dec (ts : list (list step)) : finished ts \/ exists ts1 a t ts2, ts = ts1 ++ (a :: t) :: ts2.
Proof.
  induction ts as [|t ts IH]; [left; constructor|]. destruct t as [|a t].
  - destruct IH as [H|[ts1 [b [t [ts2 ->]]]]].
    + left. constructor; [reflexivity|exact H].
    + right. exists ([] :: ts1), b, t, ts2. reflexivity.
  - right. exists [], a, t, ts. reflexivity.
Qed.
Lemma first_unfinished (rem : list (list (list step))) : Forall finished rem \/
  exists pre ts1 a t ts2 post, rem = pre ++ (ts1 ++ (a :: t) :: ts2) :: post /\ Forall finished pre.
Proof.
  induction rem as [|ts rem IH]; [left; constructor|].
  destruct (finished_dec ts) as [Hf|[ts1 [a [t [ts2 ->]]]]].
  - destruct IH as [H|[pre [ts1 [a [t [ts2 [post [-> Hp]]]]]]]].
    + left. constructor; assumption.
    + right. exists (ts :: pre), ts1, a, t, ts2, post. split; [reflexivity|constructor; assumption].
  - right. exists [], ts1, a, t, ts2, rem. split; [reflexivity|constructor].
Qed.
Theorem no_deadlock ops rem : exists tr rem', partial_run ops rem tr rem' /\ Forall finished rem'.
Proof.
  remember (work rem) as n eqn:En. revert rem En. induction n as [|n IH]; intros rem En.
  - destruct (first_unfinished rem) as [H|[pre [ts1 [a [t [ts2 [post [-> Hp]]]]]]]].
    + exists [], rem. split; [constructor|exact H].
    + exfalso. unfold work in En. rewrite concat_app, concat_app, app_length in En. cbn [concat] in En.
      rewrite !concat_app in En. cbn [concat] in En. rewrite !app_length in En. cbn [length app] in En. lia.
  - destruct (first_unfinished rem) as [H|[pre [ts1 [a [t [ts2 [post [-> Hp]]]]]]]].
    + exists [], rem. split; [constructor|exact H].
    + destruct (IH (pre ++ (ts1 ++ t :: ts2) :: post)) as [tr [rem' [Hr Hf]]].
      * unfold work in *. rewrite concat_app in *. cbn [concat] in *. rewrite !concat_app in *. cbn [concat] in *.
        rewrite !app_length in *. cbn [length app] in *. rewrite ?concat_app, ?app_length in *. cbn [concat length app] in *.
        rewrite ?app_length in *. lia.
      * exists ((length pre, a) :: tr), rem'. split; [|exact Hf]. apply pr_step; [|exact Hr].
        intros i oi oj tsi Hi _ _ _ Hn. rewrite Forall_forall in Hp. apply Hp. eapply nth_error_In; exact Hn.
Qed.
Corollary execution_exists ops : exists tr, execution ops tr.
Proof. destruct (no_deadlock ops (map o_tasks ops)) as [tr [rem [H1 H2]]]. exists tr, rem. split; assumption. Qed.

(** ---- determinism ---- *)
Lemma writes_dec (t : list step) l : {writes t l} + {~ writes t l}.
Proof.
  induction t as [|a t IH]; [right; intros [st [[] _]]|].
  destruct (L_eq_dec (tgt a) l) as [E|E]; [left; exists a; split; [left; reflexivity|exact E]|].
  destruct IH as [H|H].
  - left. destruct H as [st [Hi Ht]]. exists st. split; [right; exact Hi|exact Ht].
  - right. intros [st [[<-|Hi] Ht]]; [contradiction|]. apply H. exists st. split; assumption.
Defined.
Lemma some_writer (ts : list (list step)) l :
  (exists i t, nth_error ts i = Some t /\ writes t l) \/ (forall t, In t ts -> ~ writes t l).
Proof.
  induction ts as [|t ts IH]; [right; intros t []|].
  destruct (writes_dec t l) as [H|H].
  - left. exists 0, t. split; [reflexivity|exact H].
  - destruct IH as [[i [t' [Hi Hw]]]|IH].
    + left. exists (S i), t'. split; assumption.
    + right. intros t' [<-|Ht]; [exact H|apply IH; exact Ht].
Qed.
Lemma interleave_deterministic (ts : list (list step)) tr : interleave ts tr -> non_interfering ts ->
  forall s l, run tr s l = run (concat ts) s l.
Proof.
  intros Hil Hni s l. destruct (some_writer ts l) as [[i [t [Hi Hw]]]|Hn].
  - assert (Ho : forall j tj, j <> i -> nth_error ts j = Some tj -> ~ writes tj l).
    { intros j tj Hj Htj. apply (Hni i j t tj l); auto. }
    rewrite (interleave_task _ _ L_eq_dec ts tr Hil Hni s i t l Hi Ho).
    rewrite (interleave_task _ _ L_eq_dec ts _ (interleave_concat ts) Hni s i t l Hi Ho). reflexivity.
  - rewrite (interleave_frame _ _ L_eq_dec ts tr Hil s l Hn).
    rewrite (interleave_frame _ _ L_eq_dec ts _ (interleave_concat ts) s l Hn). reflexivity.
Qed.

Lemma run_concat_congr (ops : list op) trs :
  Forall2 (fun o t => interleave (o_tasks o) t) ops trs -> Forall (fun o => non_interfering (o_tasks o)) ops ->
  forall s l, run (concat trs) s l = run (sequential ops) s l.
Proof.
  unfold sequential. induction 1 as [|o t ops trs Hot H IH]; intros Hni s l; [reflexivity|].
  inversion Hni; subst. cbn [concat flat_map]. rewrite !run_app. rewrite IH by assumption.
  apply run_ext. intros l'. apply interleave_deterministic; assumption.
Qed.

(** Every execution has the effect of the sequential one. *)
Theorem async_sequential ops tr :
  Forall well_declared ops -> Forall (fun o => non_interfering (o_tasks o)) ops ->
  execution ops tr -> forall s l, run (map snd tr) s l = run (sequential ops) s l.
Proof.
  intros Hwd Hni He s l. destruct (async_program_order Hwd He) as [trs [H1 H2]].
  rewrite H2. apply run_concat_congr; assumption.
Qed.

(** A blocking read (Future::get_result, Scalar::get_value) of a location with a single writer returns its
    final value as soon as that writer has finished, whatever else is still running. *)
Theorem ready_value_is_final ops tr rem i :
  Forall well_declared ops -> Forall (fun o => non_interfering (o_tasks o)) ops ->
  partial_run ops (map o_tasks ops) tr rem ->
  (forall ts, nth_error rem i = Some ts -> finished ts) ->
  forall s l, (forall j o, j <> i -> nth_error ops j = Some o -> ~ o_writes o l) ->
    run (map snd tr) s l = run (sequential ops) s l.
Proof.
  intros Hwd Hni Hr Hfin s l Hl.
  destruct (no_deadlock ops rem) as [tr2 [rem2 [Hr2 Hf2]]].
  assert (Hx : execution ops (tr ++ tr2)) by (exists rem2; split; [eapply partial_run_trans; eassumption|exact Hf2]).
  rewrite <- (async_sequential Hwd Hni Hx s l). rewrite map_app, run_app. symmetry. apply run_frame.
  intros [st [Hin Ht]]. apply in_map_iff in Hin. destruct Hin as [[j a] [E Hin]]. cbn in E. subst a.
  destruct (partial_run_in Hr2 j st Hin) as [ts [t [Hn [Htt Hst]]]].
  destruct (Nat.eq_dec j i) as [->|Hne].
  - specialize (Hfin ts Hn). unfold finished in Hfin. rewrite Forall_forall in Hfin. specialize (Hfin t Htt). subst t. destruct Hst.
  - assert (Hok : rem_ok ops rem).
    { eapply partial_run_rem_ok; [exact Hr|]. apply rem_ok_init. exact Hwd. }
    assert (Hlen := rem_ok_length Hok).
    assert (Hj : j < length ops) by (rewrite Hlen; apply nth_error_Some; rewrite Hn; discriminate).
    destruct (nth_error ops j) as [o|] eqn:Ej; [|apply nth_error_None in Ej; lia].
    apply (Hl j o Hne Ej). rewrite <- Ht. apply (@rem_ok_nth ops rem j o ts Hok Ej Hn t st Htt Hst).
Qed.
End Async.
Arguments mk_op {L V}.
Arguments o_tasks {L V}.
Arguments o_reads {L V}.
Arguments o_writes {L V}.
