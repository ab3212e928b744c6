(** Outcome: what a piece of C++ code can do. *)
Set Implicit Arguments.
(** [Ok a]: returned a.  [AssertFail]: an assert() failed (the process aborts).
    [UB]: undefined behaviour (out-of-range access, integer division by zero, uninitialised read, ...).
    [OutOfFuel]: the model's loop bound was reached; every theorem excludes it explicitly. *)
Inductive outcome (A : Type) : Type :=
| Ok (a : A)
| AssertFail
| UB
| OutOfFuel.
Arguments Ok {A} a.
Arguments AssertFail {A}.
Arguments UB {A}.
Arguments OutOfFuel {A}.

Definition obind {A B} (m : outcome A) (f : A -> outcome B) : outcome B :=
  match m with
  | Ok a => f a
  | AssertFail => AssertFail
  | UB => UB
  | OutOfFuel => OutOfFuel
  end.
Definition oassert {B} (c : bool) (k : outcome B) : outcome B := if c then k else AssertFail.
Notation "'do' x <- m ; k" := (obind m (fun x => k)) (at level 200, x pattern, m at level 100, k at level 200).
