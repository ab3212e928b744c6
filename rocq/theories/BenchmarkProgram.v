(** BenchmarkProgram: the whole of /repo/test/BenchmarkStencil.cpp after the command line has been parsed: options, choice of the stencil, vectors,
    planner, solver, driver (the driver itself is in Benchmark.v). *)
From Coq Require Import Reals.
From Verif Require Import Base Index Outcome Sched Async Arith Launch Vector Matrix Builder Planner PlannerSetup Solvers PropsPlanner PropsSolver PropsStencilCG
  ScalarProg VectorProg Benchmark.
Set Implicit Arguments.

(** BenchmarkStencil.cpp:146-154: the variables the options set; num_warmup_traces has no option *)
Record options := mk_options { op_dim : Z; op_solver : Z; op_nx : Z; op_ny : Z; op_nz : Z; op_pieces : Z; op_it : Z; op_pt : Z }.
(** BenchmarkStencil.cpp:146-153: the values when no option is given *)
Definition default_options : options := mk_options 1 1 16 16 16 4 20 1.
(** BenchmarkStencil.cpp:157-167: -dim, -solver, -nx, -ny, -nz, -vp, -it, -pt *)
Inductive flag := Fdim | Fsolver | Fnx | Fny | Fnz | Fvp | Fit | Fpt.
(** an option replaces one value and leaves the others; conversion of the text to a number, and its range, is Realm's (external) *)
Definition set_option (o : options) (f : flag * Z) : options :=
  let (f, z) := f in
  match f with
  | Fdim => mk_options z (op_solver o) (op_nx o) (op_ny o) (op_nz o) (op_pieces o) (op_it o) (op_pt o)
  | Fsolver => mk_options (op_dim o) z (op_nx o) (op_ny o) (op_nz o) (op_pieces o) (op_it o) (op_pt o)
  | Fnx => mk_options (op_dim o) (op_solver o) z (op_ny o) (op_nz o) (op_pieces o) (op_it o) (op_pt o)
  | Fny => mk_options (op_dim o) (op_solver o) (op_nx o) z (op_nz o) (op_pieces o) (op_it o) (op_pt o)
  | Fnz => mk_options (op_dim o) (op_solver o) (op_nx o) (op_ny o) z (op_pieces o) (op_it o) (op_pt o)
  | Fvp => mk_options (op_dim o) (op_solver o) (op_nx o) (op_ny o) (op_nz o) z (op_it o) (op_pt o)
  | Fit => mk_options (op_dim o) (op_solver o) (op_nx o) (op_ny o) (op_nz o) (op_pieces o) z (op_pt o)
  | Fpt => mk_options (op_dim o) (op_solver o) (op_nx o) (op_ny o) (op_nz o) (op_pieces o) (op_it o) z
  end.
Definition parse_options (args : list (flag * Z)) : options := fold_left set_option args default_options.
(** BenchmarkStencil.cpp:24-137 (get_laplacian_matrix): the box and the offsets of the chosen stencil; [None] is the default branch, which prints
    "INVALID DIM" and exits *)
Definition chosen_stencil (o : options) : option (rect * list (point * R)) :=
  if ((1 <=? op_dim o) && (op_dim o <=? 4))%Z
  then Some (benchmark_box (Z.to_nat (op_dim o)) (op_nx o) (op_ny o) (op_nz o), benchmark_offsets (Z.to_nat (op_dim o))) else None.

(** what a finished run leaves: "INVALID DIM" and exit, or the four vectors and the report, if a solver was chosen *)
Record vectors := mk_vectors { v_rhs : pvec; v_rhs1 : pvec; v_sol : pvec; v_sol1 : pvec }.
Inductive finish := InvalidDim | Finished (vs : vectors) (rep : option report).

Section Program.
Variable T : Type.
Variable A : arith T.
Variable lg : legion.
Variable red : nat -> list T -> T.
(** the driver as a step of a program: the operations it issues, in order *)
Definition driven {X} (new : M T X) (step : X -> M T X) (it pt : Z) : M T (option report) := fun st =>
  do r <- benchmark new step it pt st;
  let '(_, l0, warm, timed, rep, st') := r in Ok (Some rep, l0 ++ concat (warm ++ timed), st').
(** BenchmarkStencil.cpp:209 (CG), 263 (BiCGStab), 317-318 (GMRES, restart length 10); any other number runs no solver *)
Definition run_solver (solver it pt : Z) (pl : planner T) : M T (option report) :=
  if (solver =? 1)%Z then driven (cg_new A lg red pl) (cg_step A lg red) it pt
  else if (solver =? 2)%Z then driven (bicg_new A lg pl) (bicg_step A lg red) it pt
  else if (solver =? 3)%Z then driven (gmres_new A lg pl 10) (gmres_step A lg red) it pt
  else ret None.
(** BenchmarkStencil.cpp:181-207: two right-hand sides filled with ones, two solution vectors filled with zeros, and the planner; [q] is the partition of the
    matrix's row space made by create_equal_partition (173-179; Legion's) *)
Definition prepare (m : matrix T) (q : nat) : M T (vectors * planner T) :=
  let* rhs := new_vector T lg q in
  issue (constant_fill lg rhs (a1 A)) ;;
  let* rhs1 := new_vector T lg q in
  issue (constant_fill lg rhs1 (a1 A)) ;;
  let* sol := new_vector T lg q in
  issue (zero_fill A lg sol) ;;
  let* sol1 := new_vector T lg q in
  issue (zero_fill A lg sol1) ;;
  let* pl := lift (do_calls lg (new_planner T) (benchmark_calls sol sol1 rhs rhs1 m)) in
  ret (mk_vectors rhs rhs1 sol sol1, pl).
(** BenchmarkStencil.cpp:170-371 with the matrix [m] returned by create_linearized_csr_stencil_matrix (its contents are specified by [stencil_matrix],
    modelled in StencilCreate.v).  Output, timing, fences, reference counts and the final destructions (373-376) are not part of this function. *)
Definition benchmark_program (o : options) (m : matrix T) (q : nat) : M T finish :=
  match chosen_stencil o with
  | None => ret InvalidDim
  | Some _ =>
      let* y := prepare m q in
      let* rep := run_solver (op_solver o) (op_it o) (op_pt o) (snd y) in
      ret (Finished (fst y) rep)
  end.
End Program.
