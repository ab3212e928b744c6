(** ScalarProg: straight-line C++ programs over Scalar<T> variables (expressions with the overloaded operators of
    /repo/src/Scalar.hpp:48-66 and assignments, Scalar.hpp:38-46), the launches they issue, and their direct
    meaning in the entry type. *)
From Verif Require Import Base Index Outcome Sched Async Arith Launch Vector VectorFacts LaunchFacts Builder BuilderFacts.
Set Implicit Arguments.

Inductive sexp (T : Type) :=
| Var (x : nat)
| Const (c : T)                       (* Scalar(ctx, rt, c) *)
| Plus (e : sexp T)                   (* +e *)
| Neg (e : sexp T)
| Add (e1 e2 : sexp T) | Sub (e1 e2 : sexp T) | Mul (e1 e2 : sexp T) | Div (e1 e2 : sexp T)
| Sqrt (e : sexp T) | RSqrt (e : sexp T).
Arguments Var {T}.
(** x = e; *)
Record stmt (T : Type) := Assign { st_var : nat; st_exp : sexp T }.

Section Prog.
Variable T : Type.
Variable A : arith T.
Notation M := (M T).

(** ---- direct evaluation: variables hold values of the entry type ---- *)
Fixpoint direct_exp (v : nat -> T) (e : sexp T) : T :=
  match e with
  | Var x => v x
  | Const c => c
  | Plus e => direct_exp v e
  | Neg e => aneg A (direct_exp v e)
  | Add e1 e2 => aadd A (direct_exp v e1) (direct_exp v e2)
  | Sub e1 e2 => asub A (direct_exp v e1) (direct_exp v e2)
  | Mul e1 e2 => amul A (direct_exp v e1) (direct_exp v e2)
  | Div e1 e2 => adiv A (direct_exp v e1) (direct_exp v e2)
  | Sqrt e => asqrt A (direct_exp v e)
  | RSqrt e => adiv A (a1 A) (asqrt A (direct_exp v e))
  end.
Definition set {X} (v : nat -> X) (x : nat) (c : X) : nat -> X := fun y => if y =? x then c else v y.
Fixpoint direct_prog (v : nat -> T) (p : list (stmt T)) : nat -> T :=
  match p with
  | [] => v
  | a :: rest => direct_prog (set v (st_var a) (direct_exp v (st_exp a))) rest
  end.

(** ---- what the C++ does: variables hold futures, operators launch tasks ---- *)
Fixpoint issue_exp (env : nat -> scalar) (e : sexp T) : M scalar :=
  match e with
  | Var x => ret (env x)
  | Const c => scalar_const c
  | Plus e => let* a := issue_exp env e in @scalar_plus T a
  | Neg e => let* a := issue_exp env e in scalar_neg A a
  | Add e1 e2 => let* a := issue_exp env e1 in let* b := issue_exp env e2 in scalar_add A a b
  | Sub e1 e2 => let* a := issue_exp env e1 in let* b := issue_exp env e2 in scalar_sub A a b
  | Mul e1 e2 => let* a := issue_exp env e1 in let* b := issue_exp env e2 in scalar_mul A a b
  | Div e1 e2 => let* a := issue_exp env e1 in let* b := issue_exp env e2 in scalar_div A a b
  | Sqrt e => let* a := issue_exp env e in scalar_sqrt A a
  | RSqrt e => let* a := issue_exp env e in scalar_rsqrt A a
  end.
Fixpoint issue_prog (env : nat -> scalar) (p : list (stmt T)) : M (nat -> scalar) :=
  match p with
  | [] => ret env
  | a :: rest => let* f := issue_exp env (st_exp a) in issue_prog (set env (st_var a) f) rest
  end.

(** every variable holds an existing future *)
Definition env_ok (env : nat -> scalar) (st : ist) : Prop := forall x, env x < next_fut st.

(** the futures that existed before keep their values, and nothing but futures is written *)
Definition preserved (st : ist) (s s' : store loc T) : Prop :=
  forall l, (forall n, next_fut st <= n -> l <> LFut n) -> s' l = s l.
Definition env_val (env : nat -> scalar) (s : store loc T) : nat -> T := fun x => s (LFut (env x)).

Lemma preserved_trans st st1 s s1 s2 : next_fut st <= next_fut st1 -> preserved st s s1 -> preserved st1 s1 s2 -> preserved st s s2.
Proof. intros Hle H1 H2 l Hl. rewrite H2; [apply H1; exact Hl|]. intros n Hn. apply Hl. lia. Qed.
Lemma preserved_fut st s s' n : preserved st s s' -> n < next_fut st -> s' (LFut n) = s (LFut n).
Proof. intros H Hn. apply H. intros m Hm E. injection E as ->. lia. Qed.

Lemma direct_exp_ext v v' e : (forall x, v x = v' x) -> direct_exp v e = direct_exp v' e.
Proof. intros H. induction e as [x|c|e IH|e IH|e1 IH1 e2 IH2|e1 IH1 e2 IH2|e1 IH1 e2 IH2|e1 IH1 e2 IH2|e IH|e IH]; cbn; rewrite ?IH, ?IH1, ?IH2; try reflexivity. apply H. Qed.
Lemma direct_prog_ext p : forall v v', (forall x, v x = v' x) -> forall x, direct_prog v p x = direct_prog v' p x.
Proof.
  induction p as [|a p IH]; intros v v' H x; [apply H|]. cbn. apply IH. intros y. unfold set.
  rewrite (direct_exp_ext v v' (st_exp a) H). destruct (y =? st_var a); [reflexivity|apply H].
Qed.

Definition exp_post (env : nat -> scalar) (e : sexp T) (st : ist) (s : store loc T) (n : scalar) (st' : ist) (s' : store loc T) : Prop :=
  s' (LFut n) = direct_exp (env_val env s) e /\ n < next_fut st' /\ next_fut st <= next_fut st' /\ preserved st s s'.

Lemma task_preserved st s s' : (forall l, l <> LFut (next_fut st) -> s' l = s l) -> preserved st s s'.
Proof. intros H l Hl. apply H. apply Hl. lia. Qed.

Lemma unary_spec env (e : sexp T) (f : T -> T) st s :
  (wp (issue_exp env e) (exp_post env e st s) st s) ->
  wp (let* a := issue_exp env e in scalar_task [a] (on1 A f))
     (fun n st' s' => s' (LFut n) = f (direct_exp (env_val env s) e) /\ n < next_fut st' /\ next_fut st <= next_fut st' /\ preserved st s s') st s.
Proof.
  intros H. apply wp_bind. eapply wp_conseq; [exact H|]. intros n st1 s1 [V [L1 [L2 P]]].
  apply wp_scalar_task. intros s2 E F. cbn in E. rewrite V in E. split; [exact E|]. cbn. split; [lia|]. split; [lia|].
  eapply preserved_trans; [exact L2|exact P|]. apply task_preserved. exact F.
Qed.
Lemma binary_spec env (e1 e2 : sexp T) (f : T -> T -> T) st s : env_ok env st ->
  (wp (issue_exp env e1) (exp_post env e1 st s) st s) ->
  (forall st s, env_ok env st -> wp (issue_exp env e2) (exp_post env e2 st s) st s) ->
  wp (let* a := issue_exp env e1 in let* b := issue_exp env e2 in scalar_task [a; b] (on2 A f))
     (fun n st' s' => s' (LFut n) = f (direct_exp (env_val env s) e1) (direct_exp (env_val env s) e2) /\ n < next_fut st' /\ next_fut st <= next_fut st' /\ preserved st s s') st s.
Proof.
  intros He H1 H2. apply wp_bind. eapply wp_conseq; [exact H1|]. intros n st1 s1 [V [L1 [L2 P]]].
  apply wp_bind. eapply wp_conseq; [apply H2; intros x; specialize (He x); lia|]. intros m st2 s2 [V2 [L3 [L4 P2]]].
  apply wp_scalar_task. intros s3 E F. cbn in E. rewrite V2, (preserved_fut P2 L1), V in E.
  assert (Ev : direct_exp (env_val env s1) e2 = direct_exp (env_val env s) e2).
  { apply direct_exp_ext. intros x. unfold env_val. apply (preserved_fut P). apply He. }
  rewrite Ev in E. split; [exact E|]. cbn. split; [lia|]. split; [lia|].
  apply (@preserved_trans st st1 s s1 s3); [lia|exact P|]. apply (@preserved_trans st1 st2 s1 s2 s3); [lia|exact P2|]. apply task_preserved. exact F.
Qed.

Lemma issue_exp_spec env e : forall st s, env_ok env st -> wp (issue_exp env e) (exp_post env e st s) st s.
Proof.
  induction e as [x|c|e IH|e IH|e1 IH1 e2 IH2|e1 IH1 e2 IH2|e1 IH1 e2 IH2|e1 IH1 e2 IH2|e IH|e IH]; intros st s He; cbn [issue_exp].
  - apply wp_ret. split; [reflexivity|]. split; [apply He|]. split; [lia|]. intros l _. reflexivity.
  - apply wp_scalar_task. intros s' E F. split; [exact E|]. cbn. split; [lia|]. split; [lia|]. apply task_preserved. exact F.
  - apply wp_bind. eapply wp_conseq; [apply IH; exact He|]. intros n st1 s1 H. apply wp_ret. exact H.
  - apply unary_spec. apply IH. exact He.
  - apply binary_spec; auto.
  - apply binary_spec; auto.
  - apply binary_spec; auto.
  - apply binary_spec; auto.
  - apply unary_spec. apply IH. exact He.
  - apply (unary_spec (env:=env) (e:=e) (fun v => adiv A (a1 A) (asqrt A v))). apply IH. exact He.
Qed.

Lemma issue_prog_spec p : forall env st s, env_ok env st ->
  wp (issue_prog env p) (fun env' st' s' =>
    (forall x, s' (LFut (env' x)) = direct_prog (env_val env s) p x) /\ env_ok env' st' /\ next_fut st <= next_fut st' /\ preserved st s s') st s.
Proof.
  induction p as [|a p IH]; intros env st s He; cbn [issue_prog].
  - apply wp_ret. repeat split; auto.
  - apply wp_bind. eapply wp_conseq; [apply issue_exp_spec; exact He|]. intros n st1 s1 [V [L1 [L2 P]]].
    eapply wp_conseq; [apply IH|].
    + intros x. unfold set. destruct (x =? st_var a); [exact L1|]. specialize (He x). lia.
    + intros env' st2 s2 [H1 [H2 [H3 H4]]]. split; [|split; [exact H2|split; [lia|eapply preserved_trans; eassumption]]].
      intros x. rewrite H1. cbn [direct_prog]. apply direct_prog_ext. intros y. unfold env_val, set.
      destruct (y =? st_var a); [exact V|]. apply (preserved_fut P). apply He.
Qed.

Lemma direct_prog_app p q v : direct_prog v (p ++ q) = direct_prog (direct_prog v p) q.
Proof. revert v. induction p as [|a p IH]; intros v; [reflexivity|]. cbn. apply IH. Qed.
Lemma direct_prog_other p : forall v x, (forall a, In a p -> st_var a <> x) -> direct_prog v p x = v x.
Proof.
  induction p as [|a p IH]; intros v x H; [reflexivity|]. cbn. rewrite IH by (intros b Hb; apply H; right; exact Hb).
  unfold set. destruct (x =? st_var a) eqn:E; [|reflexivity]. apply Nat.eqb_eq in E. exfalso. apply (H a); [left; reflexivity|congruence].
Qed.
End Prog.
