(** PropsScalar: properties C01 - C02 (deferred scalar arithmetic). *)
From Verif Require Import Base Index Outcome Sched Async Arith Launch Vector VectorFacts LaunchFacts Builder BuilderFacts Exec ScalarProg FreshFacts.
Set Implicit Arguments.

(** ** C01.  A straight-line program over Scalar variables (each variable may be used many times: a DAG).  The
    program is always accepted, and however the runtime schedules its tasks every variable's future finally
    holds the value obtained by evaluating the program directly in the entry type. *)
Theorem C01_deferred_equals_direct : forall (T : Type) (A : arith T) (p : list (stmt T)) (env : nat -> nat) (st : ist) (s : store loc T),
  (forall x, env x < next_fut st) ->
  accepted (issue_prog A env p) st /\
  forall env' st' s', ends (issue_prog A env p) st s env' st' s' ->
    forall x, s' (LFut (env' x)) = direct_prog A (fun y => s (LFut (env y))) p x.
Proof.
  intros T A p env st s He. assert (W := @issue_prog_spec T A p env st s He). split; [eapply wp_accepted; exact W|].
  intros env' st' s' Hends x. destruct (wp_ends W Hends) as [s1 [[H _] E]]. rewrite E. apply H.
Qed.
(** A future may be read (get_value) as soon as its task has finished, while other tasks are still pending: the
    value is already the final one. *)
Theorem C01_ready_value_final : forall (T : Type) (A : arith T) (p : list (stmt T)) (env : nat -> nat) (st st' : ist)
    env' (lns : list (launch T)) tr rem i ln n,
  (forall x, env x < next_fut st) ->
  issue_prog A env p st = Ok (env', lns, st') ->
  partial_run (map (@op_of T) lns) (map (@ln_tasks T) lns) tr rem ->
  nth_error lns i = Some ln -> ln_result ln = Some n ->
  (forall ts, nth_error rem i = Some ts -> finished ts) ->
  forall s s', launches_end lns s s' -> run loc_dec (map snd tr) s (LFut n) = s' (LFut n).
Proof.
  intros T A p env st st' env' lns tr rem i ln n He H Hr Hi Hn Hf s s' Hs.
  assert (Hg : Forall good_launch lns).
  { destruct (@issue_prog_spec T A p env st s He) as [x [lns0 [st0 [E [G _]]]]]. rewrite H in E. injection E as _ <- _. exact G. }
  exact (@early_read_final T _ (issue_prog A env p) st env' lns st' (@issue_prog_fresh T A p env) H Hg tr rem i ln n Hr Hi Hn Hf s s' Hs).
Qed.

(** a = 3; b = 4; c = sqrt(a*a + b*b); d = -(c - a)/b, in exact arithmetic: the hypotheses hold from any state
    in which the variables' futures exist, and (by C01_deferred_equals_direct) d holds (3 - 5)/4. *)
From Coq Require Import Reals Lra.
Definition C01_program : list (stmt (option R)) :=
  [Assign 0 (Const (Some 3%R)); Assign 1 (Const (Some 4%R));
   Assign 2 (Sqrt (Add (Mul (Var 0) (Var 0)) (Mul (Var 1) (Var 1))));
   Assign 3 (Div (Neg (Sub (Var 2) (Var 0))) (Var 1))].
Example C01_example : forall s,
  accepted (issue_prog exact (fun _ => 0) C01_program) (mk_ist 1 0) /\
  forall env' st' s', ends (issue_prog exact (fun _ => 0) C01_program) (mk_ist 1 0) s env' st' s' ->
    s' (LFut (env' 2)) = Some 5%R /\ s' (LFut (env' 3)) = Some (-1/2)%R.
Proof.
  intros s. destruct (@C01_deferred_equals_direct _ exact C01_program (fun _ => 0) (mk_ist 1 0) s) as [H1 H2]; [intros x; cbn; lia|].
  split; [exact H1|]. intros env' st' s' H. rewrite !(H2 _ _ _ H).
  cbn. assert (E : (3 * 3 + 4 * 4 = 5 * 5)%R) by ring.
  destruct (Rlt_dec (3 * 3 + 4 * 4) 0) as [L|L]; [exfalso; lra|]. rewrite E, sqrt_square by lra. split; [reflexivity|]. cbn.
  destruct (Req_EM_T 4 0) as [Z|Z]; [exfalso; lra|]. f_equal. lra.
Qed.

(** ** C02.  Whatever statements [q] follow a program [p], a variable not assigned by [q] keeps its value: no
    later re-assignment of the variables it was computed or copied from changes it. *)
Theorem C02_value_semantics : forall (T : Type) (A : arith T) (p q : list (stmt T)) (env : nat -> nat) (st : ist) (s : store loc T) (x : nat),
  (forall y, env y < next_fut st) -> (forall a, In a q -> st_var a <> x) ->
  forall env1 st1 s1 env2 st2 s2,
    ends (issue_prog A env p) st s env1 st1 s1 -> ends (issue_prog A env (p ++ q)) st s env2 st2 s2 ->
    s2 (LFut (env2 x)) = s1 (LFut (env1 x)).
Proof.
  intros T A p q env st s x He Hq env1 st1 s1 env2 st2 s2 H1 H2.
  rewrite (proj2 (@C01_deferred_equals_direct T A p env st s He) _ _ _ H1).
  rewrite (proj2 (@C01_deferred_equals_direct T A (p ++ q) env st s He) _ _ _ H2).
  rewrite direct_prog_app. apply direct_prog_other. exact Hq.
Qed.
(** y = x; then re-assigning x (any number of times, to anything): y still holds x's old value. *)
Theorem C02_copy_keeps_old_value : forall (T : Type) (A : arith T) (x y : nat) (q : list (stmt T)) (env : nat -> nat) (st : ist) (s : store loc T),
  (forall z, env z < next_fut st) -> (forall a, In a q -> st_var a <> y) ->
  forall env' st' s', ends (issue_prog A env (Assign y (Var x) :: q)) st s env' st' s' ->
    s' (LFut (env' y)) = s (LFut (env x)).
Proof.
  intros T A x y q env st s He Hq env' st' s' H.
  rewrite (proj2 (@C01_deferred_equals_direct T A _ env st s He) _ _ _ H). cbn [direct_prog st_var st_exp direct_exp].
  rewrite direct_prog_other by exact Hq. unfold set. rewrite Nat.eqb_refl. reflexivity.
Qed.
(** x = 7; y = x; x = x + x; z = y - x *)
Definition C02_program : list (stmt (option R)) :=
  [Assign 0 (Const (Some 7%R)); Assign 1 (Var 0); Assign 0 (Add (Var 0) (Var 0)); Assign 2 (Sub (Var 1) (Var 0))].
Example C02_example : forall s,
  accepted (issue_prog exact (fun _ => 0) C02_program) (mk_ist 1 0) /\
  forall env' st' s', ends (issue_prog exact (fun _ => 0) C02_program) (mk_ist 1 0) s env' st' s' ->
    s' (LFut (env' 1)) = Some 7%R /\ s' (LFut (env' 0)) = Some 14%R /\ s' (LFut (env' 2)) = Some (-7)%R.
Proof.
  intros s. destruct (@C01_deferred_equals_direct _ exact C02_program (fun _ => 0) (mk_ist 1 0) s) as [H1 H2]; [intros x; cbn; lia|].
  split; [exact H1|]. intros env' st' s' H. rewrite !(H2 _ _ _ H). cbn. repeat split; f_equal; ring.
Qed.
