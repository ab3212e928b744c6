(** Replication: control replication, the way /repo/README.md:107 says the library may be run ("intended to work
    either with or without the use of control replication").  The REPLICABLE top-level task runs on every shard (flags:
    /repo/test/BenchmarkStencil.cpp:387, Test01ScalarOperations.cpp:43, Test02VectorOperations.cpp:224; registration:
    /repo/src/LegionUtilities.hpp:147 and 196); every shard issues the same operations, and each POINT of an operation is
    executed only by the shard its sharding functor returns: for tasks
    the functor chosen by LegionSolversMapper::select_sharding_functor (/repo/src/LegionSolversMapper.cpp:86-93),
    i.e. BlockingShardingFunctor::shard (LegionSolversMapper.cpp:140-151, Sharding.v); fills and copies keep the
    default mapper's functor, so here every operation has an arbitrary owner function.
    Trusted Legion contract: all shards issue the same operations; a shard may run ahead of the others in issuing
    them; the dependence analysis works across shards. *)
From Verif Require Import Base Sched Async.
Set Implicit Arguments.

Section Replication.
Variables L V : Type.
Notation step := (step L V).
Notation op := (op L V).

(** The point tasks [ts] whose position is given to shard [s] by the functor [own]. *)
Definition points_of (own : nat -> nat) (s : nat) (ts : list (list step)) : list (list step) :=
  map snd (filter (fun it => own (fst it) =? s) (combine (seq 0 (length ts)) ts)).

(** For each operation (first index) and each of [n] shards (second index) the tasks the shard has to run.
    [own k i] is the shard of point [i] of operation number [k]. *)
Definition replicas (n : nat) (own : nat -> nat -> nat) (ops : list op) : list (list (list (list step))) :=
  map (fun ko => map (fun s => points_of (own (fst ko)) s (o_tasks (snd ko))) (seq 0 n))
      (combine (seq 0 (length ops)) ops).

(** A step of the machine: shard number [length sh1] makes the next step of one of its tasks of operation number
    [length pre].  It must have issued that operation, and every earlier operation that conflicts with it must be
    finished on EVERY shard (including shards that have not yet issued it).  [issued]: how many operations each
    shard has issued. *)
Inductive replicated_run (ops : list op) :
    list nat -> list (list (list (list step))) -> list (nat * nat * step) ->
    list nat -> list (list (list (list step))) -> Prop :=
| rr_stop issued rem : replicated_run ops issued rem [] issued rem
| rr_issue before n after rem tr issued' rem' :
    n < length ops ->
    replicated_run ops (before ++ S n :: after) rem tr issued' rem' ->
    replicated_run ops (before ++ n :: after) rem tr issued' rem'
| rr_step issued pre sh1 ts1 a t ts2 sh2 post tr issued' rem' :
    (exists n, nth_error issued (length sh1) = Some n /\ length pre < n) ->
    (forall i oi oj shs, i < length pre -> nth_error ops i = Some oi -> nth_error ops (length pre) = Some oj ->
        conflict oi oj -> nth_error pre i = Some shs -> Forall (@finished L V) shs) ->
    replicated_run ops issued (pre ++ (sh1 ++ (ts1 ++ t :: ts2) :: sh2) :: post) tr issued' rem' ->
    replicated_run ops issued (pre ++ (sh1 ++ (ts1 ++ (a :: t) :: ts2) :: sh2) :: post)
      ((length pre, length sh1, a) :: tr) issued' rem'.

(** A complete replicated execution on [n] shards: every update tagged with its operation and its shard. *)
Definition replicated_execution (n : nat) (own : nat -> nat -> nat) (ops : list op) (tr : list (nat * nat * step)) : Prop :=
  exists rem, replicated_run ops (repeat 0 n) (replicas n own ops) tr (repeat (length ops) n) rem /\
    Forall (Forall (@finished L V)) rem.

(** Forget on which shard an update happened. *)
Definition untagged (tr : list (nat * nat * step)) : list (nat * step) := map (fun x => (fst (fst x), snd x)) tr.
(** The updates shard [s] makes for operation [k]. *)
Definition on_shard (k s : nat) (tr : list (nat * nat * step)) : list step :=
  map snd (filter (fun x => (fst (fst x) =? k) && (snd (fst x) =? s)) tr).

(** ---- the tasks of an operation are split, not lost or duplicated ---- *)
Lemma points_of_cover own n (ts : list (list step)) b :
  (forall i, b <= i < b + length ts -> own i < n) ->
  Permutation (concat (map (fun s => map snd (filter (fun it => own (fst it) =? s) (combine (seq b (length ts)) ts))) (seq 0 n))) ts.
Proof.
  revert b. induction ts as [|t ts IH]; intros b Hown.
  - cbn. induction (seq 0 n) as [|x l IHl]; [constructor|exact IHl].
  - cbn [length seq combine].
    assert (Hb : own b < n) by (apply Hown; cbn [length]; lia).
    assert (IH' := IH (S b) ltac:(intros i Hi; apply Hown; cbn [length]; lia)).
    clear IH.
    assert (G : forall l, NoDup l -> In (own b) l -> Permutation
      (concat (map (fun s => map snd (filter (fun it => own (fst it) =? s) ((b, t) :: combine (seq (S b) (length ts)) ts))) l))
      (t :: concat (map (fun s => map snd (filter (fun it => own (fst it) =? s) (combine (seq (S b) (length ts)) ts))) l))).
    { induction l as [|s l IHl]; intros ND Hin; [destruct Hin|]. inversion ND as [|x l' Hx ND']; subst.
      cbn [map concat filter fst]. destruct (Nat.eqb_spec (own b) s) as [E|E].
      - cbn [map snd app]. constructor. apply Permutation_app_head.
        erewrite map_ext_in; [reflexivity|]. intros s' Hs'. cbn [filter fst].
        destruct (Nat.eqb_spec (own b) s'); [exfalso; apply Hx; congruence|reflexivity].
      - destruct Hin as [E'|Hin]; [congruence|]. rewrite (IHl ND' Hin).
        symmetry. apply Permutation_middle. }
    etransitivity; [apply G; [apply seq_NoDup|apply in_seq; lia]|]. constructor. exact IH'.
Qed.

Lemma replicas_cover n own (ops : list op) :
  (forall k o i, nth_error ops k = Some o -> i < length (o_tasks o) -> own k i < n) ->
  Forall2 (@Permutation (list step)) (map (@concat (list step)) (replicas n own ops)) (map (@o_tasks L V) ops).
Proof.
  intros H. unfold replicas. rewrite map_map.
  assert (G : forall b os, (forall k o i, nth_error os k = Some o -> i < length (o_tasks o) -> own (b + k) i < n) ->
    Forall2 (@Permutation (list step))
      (map (fun x => concat (map (fun s => points_of (own (fst x)) s (o_tasks (snd x))) (seq 0 n))) (combine (seq b (length os)) os))
      (map (@o_tasks L V) os)).
  { intros b os. revert b. induction os as [|o os IH]; intros b Hb; [constructor|].
    cbn [length seq combine map]. constructor.
    - cbn [fst snd]. apply points_of_cover. intros i Hi. specialize (Hb 0 o i eq_refl ltac:(lia)).
      rewrite Nat.add_0_r in Hb. exact Hb.
    - apply IH. intros k o' i Hk Hi. replace (S b + k) with (b + S k) by lia. apply (Hb (S k) o' i Hk Hi). }
  apply G. exact H.
Qed.

(** ---- replicated executions are asynchronous executions ---- *)
Lemma finished_concat (shs : list (list (list step))) : finished (concat shs) <-> Forall (@finished L V) shs.
Proof.
  unfold finished. induction shs as [|x shs IH]; cbn [concat]; [split; constructor|].
  rewrite Forall_app, IH. split; [intros [A B]; constructor; assumption|intros A; inversion A; subst; split; assumption].
Qed.
Lemma finished_concats (rem : list (list (list (list step)))) :
  Forall (@finished L V) (map (@concat (list step)) rem) <-> Forall (Forall (@finished L V)) rem.
Proof.
  induction rem as [|x rem IH]; cbn [map]; [split; constructor|].
  split; intros H; inversion H; subst; constructor; try apply IH; try assumption; apply finished_concat; assumption.
Qed.

Lemma replicated_run_async (ops : list op) issued rem tr issued' rem' :
  replicated_run ops issued rem tr issued' rem' ->
  partial_run ops (map (@concat (list step)) rem) (untagged tr) (map (@concat (list step)) rem').
Proof.
  induction 1 as [issued rem|before n after rem tr issued' rem' Hn H IH|issued pre sh1 ts1 a t ts2 sh2 post tr issued' rem' Hi Hc H IH].
  - constructor.
  - exact IH.
  - cbn [untagged map fst snd]. rewrite map_app in *. cbn [map] in *. rewrite concat_app in *. cbn [concat] in *.
    rewrite <- !app_assoc in *. cbn [app] in *. rewrite app_assoc in *.
    rewrite <- (map_length (@concat (list step)) pre). apply pr_step.
    + intros i oi oj tsi Hlt Hoi Hoj Hcf Htsi. rewrite map_length in *. rewrite nth_error_map_some in Htsi.
      destruct (nth_error pre i) as [shs|] eqn:E; [|discriminate]. injection Htsi as <-.
      apply finished_concat. eapply Hc; eauto.
    + exact IH.
Qed.

(** The order of the tasks of an operation does not matter. *)
Lemma Forall2_middle A B (R : A -> B -> Prop) l1 x l2 l' :
  Forall2 R (l1 ++ x :: l2) l' -> exists l1' y l2', l' = l1' ++ y :: l2' /\ Forall2 R l1 l1' /\ R x y /\ Forall2 R l2 l2'.
Proof.
  intros H. apply Forall2_app_inv_l in H. destruct H as (l1' & l2' & H1 & H2 & ->).
  inversion H2 as [|x' y l3 l4 Hxy H3]; subst. exists l1', y, l4. auto.
Qed.
Lemma Forall2_nth_l A B (R : A -> B -> Prop) l l' i y :
  Forall2 R l l' -> nth_error l' i = Some y -> exists x, nth_error l i = Some x /\ R x y.
Proof.
  intros H. revert i. induction H as [|a b l l' Hab H IH]; intros [|i] E; cbn in *; try discriminate.
  - injection E as <-. eauto.
  - eauto.
Qed.
Lemma Forall2_len A B (R : A -> B -> Prop) l l' : Forall2 R l l' -> length l = length l'.
Proof. induction 1; cbn; congruence. Qed.
Lemma finished_perm (ts ts' : list (list step)) : Permutation ts ts' -> finished ts -> finished ts'.
Proof. unfold finished. rewrite !Forall_forall. intros P H x Hx. apply H. eapply Permutation_in; [symmetry; exact P|exact Hx]. Qed.

Lemma partial_run_perm (ops : list op) rem tr rem' : partial_run ops rem tr rem' ->
  forall rem1, Forall2 (@Permutation (list step)) rem rem1 ->
  exists rem1', partial_run ops rem1 tr rem1' /\ Forall2 (@Permutation (list step)) rem' rem1'.
Proof.
  induction 1 as [rem|pre ts1 a t ts2 post tr rem' Hc H IH]; intros rem1 P.
  - exists rem1. split; [constructor|exact P].
  - destruct (Forall2_middle _ _ _ P) as (pre1 & ts & post1 & -> & P1 & Pt & P2).
    assert (Hin : In (a :: t) ts) by (eapply Permutation_in; [exact Pt|apply in_or_app; right; left; reflexivity]).
    destruct (in_split _ _ Hin) as (u1 & u2 & ->).
    assert (P3 : Permutation (ts1 ++ t :: ts2) (u1 ++ t :: u2)).
    { apply Permutation_app_inv in Pt. rewrite <- !Permutation_middle. constructor. exact Pt. }
    destruct (IH (pre1 ++ (u1 ++ t :: u2) :: post1)) as (rem1' & Hr & Hp).
    { apply Forall2_app; [exact P1|]. constructor; assumption. }
    exists rem1'. split; [|exact Hp]. rewrite (Forall2_len P1). apply pr_step; [|exact Hr].
    intros i oi oj tsi Hi Hoi Hoj Hcf Htsi. rewrite <- (Forall2_len P1) in *.
    destruct (Forall2_nth_l _ P1 Htsi) as (x & Hx & Px). eapply finished_perm; [exact Px|]. eapply Hc; eauto.
Qed.
Lemma Forall2_perm_sym (l l' : list (list (list step))) : Forall2 (@Permutation (list step)) l l' -> Forall2 (@Permutation (list step)) l' l.
Proof. induction 1; constructor; [symmetry|]; assumption. Qed.
Lemma finished_perms (l l' : list (list (list step))) : Forall2 (@Permutation (list step)) l l' -> Forall (@finished L V) l -> Forall (@finished L V) l'.
Proof.
  induction 1 as [|x y l l' P H IH]; intros F; [constructor|]. inversion F; subst. constructor; [eapply finished_perm; eassumption|auto].
Qed.

(** ---- asynchronous executions can be carried out by the shards ---- *)
Lemma concat_split (x : list (list (list step))) : forall ts1 e ts2, concat x = ts1 ++ e :: ts2 ->
  exists sh1 u1 u2 sh2, x = sh1 ++ (u1 ++ e :: u2) :: sh2 /\ ts1 = concat sh1 ++ u1 /\ ts2 = u2 ++ concat sh2.
Proof.
  induction x as [|y x IH]; intros ts1 e ts2 E; cbn [concat] in E; [destruct ts1; discriminate|].
  assert (G : (exists u2, y = ts1 ++ e :: u2 /\ ts2 = u2 ++ concat x) \/ (exists v, ts1 = y ++ v /\ concat x = v ++ e :: ts2)).
  { clear IH. revert y E. induction ts1 as [|f ts1 IH1]; intros [|g y] E; cbn [app] in *.
    - right. exists []. split; [reflexivity|exact E].
    - injection E as -> E. left. exists y. split; [reflexivity|symmetry; exact E].
    - right. exists (f :: ts1). split; [reflexivity|exact E].
    - injection E as -> E. destruct (IH1 y E) as [(u2 & -> & ->)|(v & -> & E2)].
      + left. exists u2. auto.
      + right. exists v. auto. }
  destruct G as [(u2 & -> & ->)|(v & -> & E2)].
  - exists [], ts1, u2, x. auto.
  - destruct (IH v e ts2 E2) as (sh1 & u1 & u2 & sh2 & -> & -> & ->).
    exists (y :: sh1), u1, u2, sh2. cbn [app concat]. rewrite app_assoc. auto.
Qed.
Lemma map_split A B (f : A -> B) l l1 y l2 : map f l = l1 ++ y :: l2 ->
  exists k1 x k2, l = k1 ++ x :: k2 /\ map f k1 = l1 /\ f x = y /\ map f k2 = l2.
Proof.
  intros E. apply map_eq_app in E. destruct E as (k1 & k2 & -> & <- & E2).
  apply map_eq_cons in E2. destruct E2 as (x & k3 & -> & <- & <-). exists k1, x, k3. auto.
Qed.

(** all operations issued on all [n] shards, [n] at least the number of shards of every operation *)
Lemma nth_error_repeat A (x : A) n i : i < n -> nth_error (repeat x n) i = Some x.
Proof. revert i. induction n as [|n IH]; intros [|i] H; cbn; try lia; [reflexivity|apply IH; lia]. Qed.

Lemma partial_run_replicated (ops : list op) n rem0 tr rem0' : partial_run ops rem0 tr rem0' ->
  forall rem, map (@concat (list step)) rem = rem0 -> length rem = length ops -> Forall (fun shs => length shs = n) rem ->
  exists tr' rem', replicated_run ops (repeat (length ops) n) rem tr' (repeat (length ops) n) rem' /\
    untagged tr' = tr /\ map (@concat (list step)) rem' = rem0'.
Proof.
  induction 1 as [rem0|pre0 ts1 a t ts2 post0 tr rem0' Hc H IH]; intros rem E Hl Hn.
  - exists [], rem. split; [constructor|]. split; [reflexivity|exact E].
  - destruct (@map_split _ _ _ _ _ _ _ E) as (pre & shs & post & -> & <- & Es & <-).
    destruct (@concat_split _ _ _ _ Es) as (sh1 & u1 & u2 & sh2 & -> & -> & ->).
    destruct (IH (pre ++ (sh1 ++ (u1 ++ t :: u2) :: sh2) :: post)) as (tr' & rem' & Hr & Hu & Hm).
    + rewrite map_app. cbn [map]. rewrite concat_app. cbn [concat]. rewrite <- !app_assoc. reflexivity.
    + rewrite app_length in *. exact Hl.
    + rewrite Forall_app in *. destruct Hn as [Hn1 Hn2]. split; [exact Hn1|]. inversion Hn2 as [|x l Hx Hn3]. constructor; [|assumption].
      rewrite <- Hx, !app_length. reflexivity.
    + exists ((length pre, length sh1, a) :: tr'), rem'. split; [|split].
      * apply rr_step; [| |exact Hr].
        -- exists (length ops). split.
           ++ apply nth_error_repeat. rewrite Forall_app in Hn. destruct Hn as [_ Hn]. inversion Hn as [|x l Hx _]; subst.
              rewrite app_length. cbn [length]. lia.
           ++ rewrite <- Hl, app_length. cbn [length]. lia.
        -- intros i oi oj shs Hi Hoi Hoj Hcf Hs. apply finished_concat.
           apply (Hc i oi oj); rewrite ?map_length; try assumption.
           rewrite nth_error_map_some, Hs. reflexivity.
      * cbn [untagged map fst snd]. rewrite map_length. f_equal. exact Hu.
      * exact Hm.
Qed.

Lemma replicated_run_trans (ops : list op) i1 r1 t1 i2 r2 : replicated_run ops i1 r1 t1 i2 r2 ->
  forall t2 i3 r3, replicated_run ops i2 r2 t2 i3 r3 -> replicated_run ops i1 r1 (t1 ++ t2) i3 r3.
Proof.
  induction 1 as [|before n after rem tr issued' rem' Hn H IH|issued pre sh1 ts1 a t ts2 sh2 post tr issued' rem' Hi Hc H IH];
    intros t2 i3 r3 H2; [exact H2| |].
  - apply rr_issue; [exact Hn|]. apply IH. exact H2.
  - cbn [app]. apply rr_step; [exact Hi|exact Hc|]. apply IH. exact H2.
Qed.
(** Every shard can issue whatever it has not issued yet. *)
Lemma issue_rest (ops : list op) rem : forall after before, Forall (fun k => k <= length ops) after ->
  replicated_run ops (before ++ after) rem [] (before ++ repeat (length ops) (length after)) rem.
Proof.
  induction after as [|k after IH]; intros before Hk; [cbn; constructor|].
  inversion Hk as [|x l Hx Hk']; subst.
  assert (G : forall d j, j + d = length ops -> replicated_run ops (before ++ j :: after) rem [] (before ++ length ops :: after) rem).
  { induction d as [|d IHd]; intros j Hj.
    - replace j with (length ops) by lia. constructor.
    - apply rr_issue; [lia|]. apply IHd. lia. }
  replace (@nil (nat * nat * step)) with (@nil (nat * nat * step) ++ []) by reflexivity.
  eapply replicated_run_trans; [apply (G (length ops - k)); lia|].
  specialize (IH (before ++ [length ops]) Hk'). rewrite <- !app_assoc in IH. cbn [app] in IH.
  cbn [length repeat]. exact IH.
Qed.

(** invariants of a replicated run *)
Lemma replicated_run_inv (ops : list op) n issued rem tr issued' rem' : replicated_run ops issued rem tr issued' rem' ->
  length issued = n -> Forall (fun k => k <= length ops) issued -> length rem = length ops -> Forall (fun shs => length shs = n) rem ->
  length issued' = n /\ Forall (fun k => k <= length ops) issued' /\ length rem' = length ops /\ Forall (fun shs => length shs = n) rem'.
Proof.
  induction 1 as [|before k after rem tr issued' rem' Hn H IH|issued pre sh1 ts1 a t ts2 sh2 post tr issued' rem' Hi Hc H IH];
    intros H1 H2 H3 H4; [auto| |].
  - apply IH; [| |exact H3|exact H4].
    + rewrite app_length in *. exact H1.
    + rewrite Forall_app in *. destruct H2 as [A B]. split; [exact A|]. inversion B; subst. constructor; [lia|assumption].
  - apply IH; [exact H1|exact H2| |].
    + rewrite app_length in *. exact H3.
    + rewrite Forall_app in *. destruct H4 as [A B]. split; [exact A|]. inversion B as [|x l Hx B']. constructor; [|assumption].
      rewrite <- Hx, !app_length. reflexivity.
Qed.

Lemma replicas_length n own (ops : list op) : length (replicas n own ops) = length ops.
Proof. unfold replicas. rewrite map_length, combine_length, seq_length. lia. Qed.
Lemma replicas_shards n own (ops : list op) : Forall (fun shs => length shs = n) (replicas n own ops).
Proof.
  unfold replicas. apply Forall_forall. intros x Hx. apply in_map_iff in Hx. destruct Hx as (ko & <- & _).
  rewrite map_length, seq_length. reflexivity.
Qed.
Lemma le_repeat A (ops : list A) n : Forall (fun k => k <= length ops) (repeat 0 n).
Proof. induction n; constructor; [lia|assumption]. Qed.

(** Every state a replicated run can reach can be completed. *)
Theorem replicated_no_deadlock n own (ops : list op) tr issued rem :
  replicated_run ops (repeat 0 n) (replicas n own ops) tr issued rem ->
  exists tr', replicated_execution n own ops (tr ++ tr').
Proof.
  intros H. destruct (@replicated_run_inv ops n _ _ _ _ _ H) as (I1 & I2 & I3 & I4);
    [apply repeat_length|apply le_repeat|apply replicas_length|apply replicas_shards|].
  destruct (no_deadlock ops (map (@concat (list step)) rem)) as (tr0 & rem0 & Hp & Hf).
  destruct (@partial_run_replicated ops n _ _ _ Hp rem eq_refl I3 I4) as (tr' & rem' & Hr & Hu & Hm).
  exists tr'. exists rem'. split.
  - eapply replicated_run_trans; [exact H|].
    replace tr' with ([] ++ tr') by reflexivity. eapply replicated_run_trans; [|exact Hr].
    assert (G := issue_rest ops rem [] I2). cbn [app] in G. rewrite I1 in G. exact G.
  - apply finished_concats. rewrite Hm. exact Hf.
Qed.

Theorem replicated_execution_async n own (ops : list op) tr :
  (forall k o i, nth_error ops k = Some o -> i < length (o_tasks o) -> own k i < n) ->
  replicated_execution n own ops tr -> execution ops (untagged tr).
Proof.
  intros Ho (rem & Hr & Hf). assert (H := replicated_run_async Hr).
  destruct (partial_run_perm H (replicas_cover own ops Ho)) as (rem1 & Hr1 & P).
  exists rem1. split; [exact Hr1|]. eapply finished_perms; [exact P|]. apply finished_concats. exact Hf.
Qed.
Theorem execution_replicated n own (ops : list op) tr :
  (forall k o i, nth_error ops k = Some o -> i < length (o_tasks o) -> own k i < n) ->
  execution ops tr -> exists tr', replicated_execution n own ops tr' /\ untagged tr' = tr.
Proof.
  intros Ho (rem0 & Hr & Hf).
  destruct (partial_run_perm Hr (Forall2_perm_sym (replicas_cover own ops Ho))) as (rem1 & Hr1 & P).
  destruct (@partial_run_replicated ops n _ _ _ Hr1 (replicas n own ops) eq_refl (replicas_length _ _ _) (replicas_shards _ _ _))
    as (tr' & rem' & Hrr & Hu & Hm).
  exists tr'. split; [|exact Hu]. exists rem'. split.
  - replace tr' with ([] ++ tr') by reflexivity. eapply replicated_run_trans; [|exact Hrr].
    assert (G := issue_rest ops (replicas n own ops) [] (le_repeat ops n)). cbn [app] in G. rewrite repeat_length in G. exact G.
  - apply finished_concats. rewrite Hm. eapply finished_perms; [exact P|exact Hf].
Qed.

(** ---- what each shard does ---- *)
Lemma on_shard_interleave (ops : list op) issued rem tr issued' rem' : replicated_run ops issued rem tr issued' rem' ->
  Forall (Forall (@finished L V)) rem' -> forall k s shs ts, nth_error rem k = Some shs -> nth_error shs s = Some ts ->
  interleave ts (on_shard k s tr).
Proof.
  unfold on_shard.
  induction 1 as [issued rem|before n after rem tr issued' rem' Hn H IH|issued pre sh1 ts1 a t ts2 sh2 post tr issued' rem' Hi Hc H IH];
    intros Hf k s shs ts Hk Hs.
  - cbn. constructor. rewrite Forall_forall in Hf. specialize (Hf shs (nth_error_In _ _ Hk)).
    rewrite Forall_forall in Hf. apply Hf. eapply nth_error_In; exact Hs.
  - eapply IH; eassumption.
  - cbn [filter fst snd]. destruct (Nat.eqb_spec (length pre) k) as [<-|Hne]; cbn [andb].
    + rewrite nth_error_middle in Hk. injection Hk as <-.
      destruct (Nat.eqb_spec (length sh1) s) as [<-|Hns].
      * rewrite nth_error_middle in Hs. injection Hs as <-. cbn [map snd]. apply il_cons.
        eapply (IH Hf); apply nth_error_middle.
      * eapply (IH Hf); [apply nth_error_middle|]. rewrite <- Hs. apply nth_error_middle_other. congruence.
    + eapply (IH Hf); [|exact Hs]. rewrite <- Hk. apply nth_error_middle_other. congruence.
Qed.

Lemma nth_error_replicas n own (ops : list op) k o s : nth_error ops k = Some o -> s < n ->
  exists shs, nth_error (replicas n own ops) k = Some shs /\ nth_error shs s = Some (points_of (own k) s (o_tasks o)).
Proof.
  intros Hk Hs. unfold replicas.
  assert (Hc : nth_error (combine (seq 0 (length ops)) ops) k = Some (k, o)).
  { assert (G : forall b os k', nth_error os k' = Some o -> nth_error (combine (seq b (length os)) os) k' = Some (b + k', o)).
    { intros b os. revert b. induction os as [|x os IH]; intros b [|k'] E; cbn in *; try discriminate.
      - injection E as ->. rewrite Nat.add_0_r. reflexivity.
      - rewrite (IH (S b) k' E). do 2 f_equal. lia. }
    exact (G 0 ops k Hk). }
  eexists. split.
  - rewrite nth_error_map_some, Hc. reflexivity.
  - cbn [fst snd]. rewrite nth_error_map_some.
    rewrite (@nth_error_nth' nat _ s 0) by (rewrite seq_length; exact Hs). rewrite seq_nth by exact Hs. reflexivity.
Qed.
End Replication.
