(** TestPrograms: the bodies of the project's own test programs (/repo/test), as programs of the modelled API. *)
From Verif Require Import Base Index Outcome Sched Async Arith Launch Vector Matrix Builder Planner PlannerSetup Solvers PropsPlanner PropsSolver ScalarProg VectorProg.
Set Implicit Arguments.

Section Tests.
Variable T : Type.
Variable A : arith T.
Variable lg : legion.
Variable red : nat -> list T -> T.
(** Test05COOSolveCG.cpp:63-76 and Test06CSRSolveCG.cpp:62-75 (the same text after the matrix [m] has been generated): the vectors on partition [q],
    their values, the planner, the solver and its [k] steps.  The matrix comes from the generators modelled in ExampleSystems.v.  Reference counting is
    in Ownership.v; fences and destruction do not change values. *)
Definition cg_test (q : nat) (m : matrix T) (k : nat) : M T (pvec * cg T) :=
  let* rhs := new_vector T lg q in
  issue (constant_fill lg rhs (a1 A)) ;;
  let* sol := new_vector T lg q in
  issue (zero_fill A lg sol) ;;
  let* pl := lift (do_calls lg (new_planner T) [AddSol sol; AddRhs rhs; AddMatrix m 0 0]) in
  let* c := cg_run A lg red pl k in
  ret (sol, c).
End Tests.

(** Test01ScalarOperations.cpp:17-22 (and 25-30): x, y, z, w, v are variables 0 to 4; [c] converts a literal to the entry type *)
Definition scalar_test {T} (c : nat -> T) : list (stmt T) :=
  [Assign 0 (Const (c 2)); Assign 1 (Const (c 10)); Assign 2 (Add (Var 0) (Var 1));
   Assign 3 (Div (Var 2) (Add (Var 0) (Var 0))); Assign 4 (Sub (Var 3) (Var 0))].

(** Test02VectorOperations.cpp:118-138: u, v, w are vectors 0 to 2; [fu] and [fv] are the values filled in (1.5 and 2.7), [one], [mone] and [mhalf] the
    literals 1.0, -1.0 and -0.5 in the entry type; the scalar product that is printed is scalar variable 0 *)
Definition vector_test {T} (fu fv one mone mhalf : T) : list (vstmt T) :=
  [VFill 0 fu; VFill 1 fv; VCopy 2 0; VAxpy 2 [Const one] 1; VXpay 1 [Const mone] 0; VAxpy 0 [Const mhalf] 1; VAxpy 0 [Const mhalf] 2; SDot 0 0 0].
