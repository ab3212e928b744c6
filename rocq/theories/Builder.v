(** Builder: the application thread.  API calls return at once after issuing launches; they never look at the
    values being computed, so a call is modelled by the launches it issues (in program order), its result and the
    new state of the handle allocator. *)
From Verif Require Import Base Index Outcome Sched Async Arith Launch Vector.
Set Implicit Arguments.

(** Fresh handles: futures returned by execute_task and regions returned by create_logical_region are new. *)
Record ist := mk_ist { next_fut : nat; next_region : nat }.

Section Builder.
Variable T : Type.
Definition M (X : Type) : Type := ist -> outcome (X * list (launch T) * ist).
Definition ret {X} (x : X) : M X := fun st => Ok (x, [], st).
Definition bind {X Y} (m : M X) (f : X -> M Y) : M Y := fun st =>
  do (x, lns, st1) <- m st; do (y, lns2, st2) <- f x st1; Ok (y, lns ++ lns2, st2).
(** an outcome of sequential C++ code (assertions) *)
Definition lift {X} (o : outcome X) : M X := fun st => do x <- o; Ok (x, [], st).
Definition massert (b : bool) : M unit := fun st => if b then Ok (tt, [], st) else AssertFail.
(** issue a launch *)
Definition issue (o : outcome (launch T)) : M unit := fun st => do ln <- o; Ok (tt, [ln], st).
Definition issue_all (o : outcome (list (launch T))) : M unit := fun st => do lns <- o; Ok (tt, lns, st).
Definition fresh_fut : M nat := fun st => Ok (next_fut st, [], mk_ist (S (next_fut st)) (next_region st)).
Definition fresh_region : M nat := fun st => Ok (next_region st, [], mk_ist (next_fut st) (S (next_region st))).

Fixpoint mfor {X} (l : list X) (f : X -> M unit) : M unit :=
  match l with
  | [] => ret tt
  | x :: rest => bind (f x) (fun _ => mfor rest f)
  end.
Fixpoint mfold {X Y} (l : list X) (acc : Y) (f : Y -> X -> M Y) : M Y :=
  match l with
  | [] => ret acc
  | x :: rest => bind (f acc x) (fun acc' => mfold rest acc' f)
  end.
End Builder.
Arguments ret {T X}.
Arguments lift {T X}.
Arguments massert {T}.
Arguments fresh_fut {T}.
Arguments fresh_region {T}.
Notation "'let*' x := m 'in' k" := (bind m (fun x => k)) (at level 200, x name, m at level 200, k at level 200).
Notation "m ;; k" := (bind m (fun _ => k)) (at level 100, k at level 200, right associativity).

(** ** Scalar<T>: /repo/src/Scalar.hpp, Scalar.cpp.  A Scalar holds a future; copying or assigning it copies the
    future handle (Scalar.hpp:34-46). *)
Notation scalar := nat (only parsing).
Section Scalar.
Variable T : Type.
Variable A : arith T.
Notation M := (M T).


(** A single task reading the futures [args] and producing future [n]
    (TaskLauncher + add_future + execute_task; /repo/src/UtilityTasks.cpp:34-99). *)
Definition scalar_launch (n : nat) (args : list nat) (f : list T -> T) : launch T :=
  mk_launch [[mk_step (LFut n) (map LFut args) f]] [] args (Some n) [] [].
Definition scalar_task (args : list scalar) (f : list T -> T) : M scalar :=
  let* n := fresh_fut in issue (submit (scalar_launch n args f)) ;; ret n.

Definition on1 (f : T -> T) (vs : list T) : T := match vs with [a] => f a | _ => a0 A end.
Definition on2 (f : T -> T -> T) (vs : list T) : T := match vs with [a; b] => f a b | _ => a0 A end.

(** Scalar(ctx, rt, value): Future::from_value, /repo/src/Scalar.hpp:29-32.  SIMPLIFICATION: the ready future is
    produced by a task with no inputs. *)
Definition scalar_const (c : T) : M scalar := scalar_task [] (fun _ => c).
(** operator+() : /repo/src/Scalar.cpp:9-12 *)
Definition scalar_plus (x : scalar) : M scalar := ret x.
(** operator-() : /repo/src/Scalar.cpp:15-23, NegateScalarTask UtilityTasks.cpp:34-40 *)
Definition scalar_neg (x : scalar) : M scalar := scalar_task [x] (on1 (aneg A)).
(** operator+ - * / : /repo/src/Scalar.cpp:26-71, UtilityTasks.cpp:43-76 *)
Definition scalar_add (x y : scalar) : M scalar := scalar_task [x; y] (on2 (aadd A)).
Definition scalar_sub (x y : scalar) : M scalar := scalar_task [x; y] (on2 (asub A)).
Definition scalar_mul (x y : scalar) : M scalar := scalar_task [x; y] (on2 (amul A)).
Definition scalar_div (x y : scalar) : M scalar := scalar_task [x; y] (on2 (adiv A)).
(** sqrt, rsqrt: /repo/src/Scalar.cpp:74-93, UtilityTasks.cpp:79-99 (rsqrt is 1/sqrt) *)
Definition scalar_sqrt (x : scalar) : M scalar := scalar_task [x] (on1 (asqrt A)).
Definition scalar_rsqrt (x : scalar) : M scalar := scalar_task [x] (on1 (fun v => adiv A (a1 A) (asqrt A v))).
End Scalar.
