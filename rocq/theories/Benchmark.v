(** Benchmark: the driver of /repo/test/BenchmarkStencil.cpp:209-371: construct a solver, run five warm-up traces, run the
    timed traces, report.  The three branches (CG, BiCGStab, GMRES) are the same code with another solver type, so the
    model is parametric in the solver's constructor and step.  Fences have no effect on the state. *)
From Verif Require Import Base Index Outcome Sched Async Arith Launch Vector Matrix Builder.
Set Implicit Arguments.
Local Open Scope Z_scope.

(** std::size_t arithmetic wraps around at 2^64 *)
Definition size_t (z : Z) : Z := z mod 2 ^ 64.
(** BenchmarkStencil.cpp:154: num_warmup_traces is never changed by an option *)
Definition warmup_traces : Z := 5.
(** BenchmarkStencil.cpp:212-213 (CG), 266-267 (BiCGStab), 320-321 (GMRES): (num_iterations + iters_per_trace - 1) / iters_per_trace; dividing by zero is
    undefined behaviour *)
Definition num_traces (iterations per_trace : Z) : outcome Z :=
  if per_trace =? 0 then UB else Ok (size_t (size_t (iterations + per_trace) - 1) / per_trace).
(** what is printed: BenchmarkStencil.cpp:229-232, 247-250, and the divisor of the printed time per iteration, 257-259 *)
Record report := mk_report { printed_warmup : Z; printed_timed : Z; time_divisor : Z }.

Section Driver.
Variables T X : Type.
Variable new : M T X.
Variable step : X -> M T X.
(** BenchmarkStencil.cpp:221: for (j = 0; j < iters_per_trace; ++j) solver.step(); *)
Fixpoint trace_body (n : nat) (c : X) : M T X :=
  match n with O => ret c | S n' => let* c' := step c in trace_body n' c' end.
(** BenchmarkStencil.cpp:219-223, 237-241: a loop of [n] traces with the same trace id; the operations of each trace are kept apart *)
Fixpoint run_traces (n : nat) (per_trace : nat) (c : X) (st : ist) : outcome (X * list (list (launch T)) * ist) :=
  match n with
  | O => Ok (c, [], st)
  | S n' =>
      do r <- trace_body per_trace c st;
      let '(c1, l, st1) := r in
      do r' <- run_traces n' per_trace c1 st1;
      let '(c2, ls, st2) := r' in Ok (c2, l :: ls, st2)
  end.
(** BenchmarkStencil.cpp:209-262.  The size_t loop from num_warmup_traces to num_traces runs max(0, num_traces - num_warmup_traces) times. *)
Definition benchmark (iterations per_trace : Z) (st : ist) :
    outcome (X * list (launch T) * list (list (launch T)) * list (list (launch T)) * report * ist) :=
  do r0 <- new st;
  let '(c0, l0, st0) := r0 in
  do nt <- num_traces iterations per_trace;
  do r1 <- run_traces (Z.to_nat warmup_traces) (Z.to_nat per_trace) c0 st0;
  let '(c1, warm, st1) := r1 in
  do r2 <- run_traces (Z.to_nat (nt - warmup_traces)) (Z.to_nat per_trace) c1 st1;
  let '(c2, timed, st2) := r2 in
  Ok (c2, l0, warm, timed,
      mk_report warmup_traces (size_t (nt - warmup_traces)) (size_t (per_trace * size_t (nt - warmup_traces))), st2).
End Driver.
