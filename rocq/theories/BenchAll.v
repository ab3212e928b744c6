(** BenchAll: the benchmark scripts /repo/bench_all.py and /repo/bench_all_ls.py: the problem sizes, the command lines they build for the three benchmark
    programs, the loops that run them, and how the three programs read their command lines.
    SIMPLIFICATION: a finished process is its standard error and its return code; standard output is passed on and not looked at by the scripts.  What the
    scripts print is not modelled.  A failed assert, a raised ValueError and a KeyError are all [AssertFail]: the script ends with an exception. *)
From Coq Require Import String Ascii DecimalString List ZArith Bool.
From Verif Require Import Base Index Outcome Peers BenchmarkProgram TestAll.
Import ListNotations.
Set Implicit Arguments.
Local Open Scope string_scope.
Local Open Scope list_scope.

(** bench_all.py:7-8 *)
Definition num_cpus_per_node : Z := 40.
Definition num_gpus_per_node : Z := 4.
(** bench_all.py:11: an int, a pair or a triple *)
Inductive problem_size := Size1 (nx : Z) | Size2 (nx ny : Z) | Size3 (nx ny nz : Z).
(** Python's == on problem sizes *)
Definition same_size (a b : problem_size) : bool :=
  match a, b with
  | Size1 x, Size1 x' => Z.eqb x x'
  | Size2 x y, Size2 x' y' => Z.eqb x x' && Z.eqb y y'
  | Size3 x y z, Size3 x' y' z' => Z.eqb x x' && Z.eqb y y' && Z.eqb z z'
  | _, _ => false
  end.

(** ** The generators.  [phase] is the yield statement reached (counted from 0 within the body of the loop). *)
Record generator := mk_generator { g_phase : nat; g_nx : Z; g_ny : Z; g_nz : Z }.
Inductive iterator := Iter1 | Iter2 | Iter3.
(** bench_all.py:15, 22-23, 32-34: up to the first yield *)
Definition start_iterator (i : iterator) : generator :=
  match i with
  | Iter1 => mk_generator 0 (2 ^ 12) 0 0
  | Iter2 => mk_generator 0 (2 ^ 6) (2 ^ 6) 0
  | Iter3 => mk_generator 0 (2 ^ 4) (2 ^ 4) (2 ^ 4)
  end.
(** bench_all.py:17, 25, 27, 36, 38, 40: the value yielded *)
Definition yields (i : iterator) (g : generator) : problem_size :=
  match i with Iter1 => Size1 (g_nx g) | Iter2 => Size2 (g_nx g) (g_ny g) | Iter3 => Size3 (g_nx g) (g_ny g) (g_nz g) end.
(** bench_all.py:18, 26, 28, 37, 39, 41: from one yield to the next *)
Definition resume (i : iterator) (g : generator) : generator :=
  match i, g_phase g with
  | Iter1, _ => mk_generator 0 (g_nx g * 2) (g_ny g) (g_nz g)
  | Iter2, 0 => mk_generator 1 (g_nx g * 2) (g_ny g) (g_nz g)
  | Iter2, _ => mk_generator 0 (g_nx g) (g_ny g * 2) (g_nz g)
  | Iter3, 0 => mk_generator 1 (g_nx g * 2) (g_ny g) (g_nz g)
  | Iter3, 1 => mk_generator 2 (g_nx g) (g_ny g * 2) (g_nz g)
  | Iter3, _ => mk_generator 0 (g_nx g) (g_ny g) (g_nz g * 2)
  end.

(** ** Command lines *)
(** bench_all.py:44-67; str() of an int is [decimal] *)
Definition jsrun_command (program : string) (arguments : list string) (rank_per : string) (use_gpu_aware_mpi : bool) : outcome (list string) :=
  let head := ["jsrun"] ++ (if use_gpu_aware_mpi then ["-M"; """-gpu"""] else ["--bind"; "none"]) in
  if String.eqb rank_per "node"
  then Ok (head ++ ["--rs_per_host"; "1"] ++ ["--cpu_per_rs"; decimal num_cpus_per_node] ++ ["--gpu_per_rs"; decimal num_gpus_per_node] ++ [program] ++ arguments)
  else if String.eqb rank_per "gpu"
  then Ok (head ++ ["--rs_per_host"; decimal num_gpus_per_node] ++ ["--cpu_per_rs"; decimal (num_cpus_per_node / num_gpus_per_node)] ++ ["--gpu_per_rs"; "1"]
           ++ [program] ++ arguments)
  else AssertFail.
(** bench_all.py:70-80: "echo hello" on every node; the lines of its output *)
Definition count_nodes (stdout stderr : list string) (code : Z) : outcome Z :=
  if negb (Z.eqb code 0) then AssertFail (* check=True *)
  else match stderr with
       | _ :: _ => AssertFail
       | [] => if forallb (String.eqb "hello") stdout then Ok (Z.of_nat (length stdout)) else AssertFail
       end.
(** bench_all.py:87-134 *)
Definition petsc_args (dim : string) (s : problem_size) (solver : string) : outcome (list string) :=
  do sizes <- (if String.eqb dim "1D" then match s with Size1 nx => Ok ["-nx"; decimal nx] | _ => AssertFail end
               else if String.eqb dim "2D" then match s with Size2 nx ny => Ok ["-nx"; decimal nx; "-ny"; decimal ny] | _ => AssertFail end
               else if String.eqb dim "3D" || String.eqb dim "3D27"
               then match s with Size3 nx ny nz => Ok ["-nx"; decimal nx; "-ny"; decimal ny; "-nz"; decimal nz] | _ => AssertFail end
               else AssertFail);
  if negb (existsb (String.eqb solver) ["cg"; "bcgs"; "gmres"]) then AssertFail
  else Ok (["-dim"; dim] ++ sizes ++ ["-ksp_type"; solver] ++
           (if String.eqb solver "gmres" then ["-ksp_gmres_restart"; "10"; "-ksp_gmres_haptol"; "1.0e-100"; "ksp_gmres_modifiedgramschmidt"] else []) ++
           ["-ksp_max_it"; "200"; "-pc_type"; "none"; "-ksp_atol"; "1.0e-100"; "-ksp_rtol"; "1.0e-100"; "-ksp_divtol"; "1.0e+100"; "-vec_type"; "cuda";
            "-mat_type"; "aijcusparse"]).
(** bench_all.py:137-161 *)
Definition trilinos_args (dim : string) (s : problem_size) (solver : string) : outcome (list string) :=
  if negb (existsb (String.eqb solver) ["CG"; "BiCGStab"; "GMRES"]) then AssertFail
  else if String.eqb dim "1D" then match s with Size1 nx => Ok [dim; solver; decimal nx] | _ => AssertFail end
  else if String.eqb dim "2D" then match s with Size2 nx ny => Ok [dim; solver; decimal nx; decimal ny] | _ => AssertFail end
  else if String.eqb dim "3D" || String.eqb dim "3D27"
  then match s with Size3 nx ny nz => Ok [dim; solver; decimal nx; decimal ny; decimal nz] | _ => AssertFail end
  else AssertFail.
(** bench_all.py:164-209 and bench_all_ls.py:166-211; the two differ in the value after -nz only (line 202: problem_size[1]; line 204: problem_size[2]) *)
Inductive script_file := bench_all_py | bench_all_ls_py.
Definition legion_solvers_args (file : script_file) (nodes : Z) (dim : string) (s : problem_size) (solver : string) : outcome (list string) :=
  if negb (existsb (String.eqb solver) ["1"; "2"; "3"]) then AssertFail
  else
    do sizes <- (if String.eqb dim "1" then match s with Size1 nx => Ok ["-nx"; decimal nx] | _ => AssertFail end
                 else if String.eqb dim "2" then match s with Size2 nx ny => Ok ["-nx"; decimal nx; "-ny"; decimal ny] | _ => AssertFail end
                 else if String.eqb dim "3" || String.eqb dim "4"
                 then match s with
                      | Size3 nx ny nz => Ok ["-nx"; decimal nx; "-ny"; decimal ny; "-nz"; decimal (match file with bench_all_py => ny | bench_all_ls_py => nz end)]
                      | _ => AssertFail
                      end
                 else AssertFail);
    Ok (["-ll:util"; "4"; "-ll:gpu"; decimal num_gpus_per_node; "-ll:csize"; "100G"; "-ll:fsize"; "12G"; "-lg:eager_alloc_percentage"; "20";
         "-dim"; dim; "-solver"; solver] ++ sizes ++
        ["-it"; if negb (String.eqb solver "3") then "200" else "25"] ++ ["-pt"; "1"] ++ ["-vp"; decimal (num_gpus_per_node * nodes)]).

(** ** How the programs read their command lines *)
(** a number written in decimal notation *)
Definition number (s : string) : option Z := match NilZero.int_of_string s with Some i => Some (Z.of_int i) | None => None end.
(** BenchmarkStencil.cpp:158-166: the names of the options *)
Definition flag_of (s : string) : option flag :=
  if String.eqb s "-dim" then Some Fdim else if String.eqb s "-solver" then Some Fsolver else if String.eqb s "-nx" then Some Fnx
  else if String.eqb s "-ny" then Some Fny else if String.eqb s "-nz" then Some Fnz else if String.eqb s "-vp" then Some Fvp
  else if String.eqb s "-it" then Some Fit else if String.eqb s "-pt" then Some Fpt else None.
(** BenchmarkStencil.cpp:156-168; Realm's CommandLineParser (external): from the first argument on, the name of an option is consumed together with the
    argument after it, which must be a number (otherwise parse_command_line returns false and the assert fails); anything else is skipped.  The options of
    Legion and Realm themselves (-ll:..., -lg:...) are of the latter kind. *)
Fixpoint read_flags (args : list string) : outcome (list (flag * Z)) :=
  match args with
  | [] => Ok []
  | a :: rest =>
      match flag_of a with
      | None => read_flags rest
      | Some f =>
          match rest with
          | v :: rest' => match number v with Some z => do l <- read_flags rest'; Ok ((f, z) :: l) | None => AssertFail end
          | [] => AssertFail
          end
      end
  end.
Definition legion_options (args : list string) : outcome options := do l <- read_flags args; Ok (parse_options l).
(** PETSc's options database (external; PetscOptionsInsertArgs, simplified): an argument "-x..." whose second character is a letter is the name of an option,
    the argument after it is its value unless that is again such a name; the last occurrence counts; every other argument is ignored *)
Definition is_letter (c : ascii) : bool :=
  let n := nat_of_ascii c in ((Nat.leb 65 n && Nat.leb n 90) || (Nat.leb 97 n && Nat.leb n 122))%bool.
Definition is_option (s : string) : bool := match s with String "-" (String c _) => is_letter c | _ => false end.
Fixpoint petsc_database (args : list string) : list (string * option string) :=
  match args with
  | [] => []
  | a :: rest =>
      (if is_option a then [(a, match rest with v :: _ => if is_option v then None else Some v | [] => None end)] else []) ++ petsc_database rest
  end.
Definition petsc_option (args : list string) (name : string) : option (option string) :=
  match List.find (fun kv => String.eqb (fst kv) name) (rev (petsc_database args)) with Some (_, v) => Some v | None => None end.
(** petsc/main.cpp:21-37: char dim_name[5] receives at most four characters; strcmp; [None]: the program ends with EXIT_FAILURE *)
Definition matrix_type_named (s : string) : option laplacian :=
  if String.eqb s "1D" then Some LAPLACIAN_1D_3POINT else if String.eqb s "2D" then Some LAPLACIAN_2D_5POINT
  else if String.eqb s "3D" then Some LAPLACIAN_3D_7POINT else if String.eqb s "3D27" then Some LAPLACIAN_3D_27POINT else None.
Definition petsc_matrix_type (args : list string) : option laplacian :=
  match petsc_option args "-dim" with
  | Some (Some v) => matrix_type_named (substring 0 4 v)
  | _ => None
  end.
(** petsc/main.cpp:59-67: an integer option, 1 if it is not given; [None]: PETSc reports an error *)
Definition petsc_int (args : list string) (name : string) : option Z :=
  match petsc_option args name with None => Some 1%Z | Some (Some v) => number v | Some None => None end.
Definition petsc_sizes (args : list string) : option (laplacian * (Z * Z * Z)) :=
  match petsc_matrix_type args with
  | None => None
  | Some t =>
      match petsc_int args "-nx", petsc_int args "-ny", petsc_int args "-nz" with
      | Some nx, Some ny, Some nz => Some (t, (nx, ny, nz))
      | _, _, _ => None
      end
  end.
(** trilinos/main.cpp:36-70: args[0] is the program; [None]: the program ends with EXIT_FAILURE *)
Inductive trilinos_solver := T_CG | T_BICGSTAB | T_GMRES.
Definition trilinos_matrix_type (args : list string) : option laplacian := match nth_error ("" :: args) 1 with Some s => matrix_type_named s | None => None end.
Definition trilinos_solver_type (args : list string) : option trilinos_solver :=
  match nth_error ("" :: args) 2 with
  | Some s => if String.eqb s "CG" then Some T_CG else if String.eqb s "BiCGStab" then Some T_BICGSTAB else if String.eqb s "GMRES" then Some T_GMRES else None
  | None => None
  end.
(** std::stoull(args[i]) *)
Definition trilinos_arg (args : list string) (i : nat) : option Z := match nth_error ("" :: args) i with Some s => number s | None => None end.

(** ** The loops *)
(** how a finished process ended: b"out of memory" in proc.stderr, proc.returncode *)
Record ended := mk_ended { e_stderr : string; e_code : Z }.
Definition out_of_memory (e : ended) : bool := occurs_in "out of memory" (e_stderr e).
(** a process started by the script: its command and how it ended *)
Definition started : Type := list string * ended.
(** [world i c]: how the i-th process started by the script ends, if its command is c *)
Section Loops.
Variable world : nat -> list string -> ended.
Variable args_of : problem_size -> outcome (list string).
Variables (program rank_per : string) (mpi : bool).
Inductive attempt_result := GoOn | Stop.
(** bench_all.py:216-243: PETSc, one problem size; [n] processes were started before *)
Fixpoint petsc_attempts (fuel : nat) (n : nat) (num_tries : nat) (s : problem_size) : outcome (attempt_result * list started) :=
  match fuel with
  | O => OutOfFuel
  | S fuel' =>
      let num_tries := num_tries + 1 in
      do args <- args_of s;
      do command <- jsrun_command program args rank_per mpi;
      let proc := world n command in
      if out_of_memory proc then Ok (Stop, [(command, proc)])
      else if Z.eqb (e_code proc) 0 then Ok (GoOn, [(command, proc)])
      else if Nat.leb 5 num_tries then Ok (Stop, [(command, proc)])
      else do r <- petsc_attempts fuel' (S n) num_tries s; Ok (fst r, (command, proc) :: snd r)
  end.
(** bench_all.py:256-280 and 292-316: Trilinos, LegionSolvers *)
Fixpoint attempts (fuel : nat) (n : nat) (num_tries : nat) (s : problem_size) : outcome (attempt_result * list started) :=
  match fuel with
  | O => OutOfFuel
  | S fuel' =>
      let num_tries := num_tries + 1 in
      do args <- args_of s;
      do command <- jsrun_command program args rank_per mpi;
      let proc := world n command in
      if Z.eqb (e_code proc) 0 then Ok (GoOn, [(command, proc)])
      else if Nat.leb 5 num_tries then Ok (Stop, [(command, proc)])
      else do r <- attempts fuel' (S n) num_tries s; Ok (fst r, (command, proc) :: snd r)
  end.
(** bench_all.py:215-243: the loop over the problem sizes; the result is the size at which the loop ends, and what was run, size by size *)
Fixpoint petsc_loop (fuel : nat) (i : iterator) (g : generator) (n : nat) : outcome (problem_size * list (problem_size * list started)) :=
  match fuel with
  | O => OutOfFuel
  | S fuel' =>
      let s := yields i g in
      do r <- petsc_attempts (fuel + 4) n 0 s;
      match fst r with
      | Stop => Ok (s, [(s, snd r)])
      | GoOn => do r' <- petsc_loop fuel' i (resume i g) (n + length (snd r)); Ok (fst r', (s, snd r) :: snd r')
      end
  end.
(** bench_all.py:253-281, 289-317 *)
Fixpoint bounded_loop (fuel : nat) (i : iterator) (g : generator) (max : problem_size) (n : nat) : outcome (list (problem_size * list started)) :=
  match fuel with
  | O => OutOfFuel
  | S fuel' =>
      let s := yields i g in
      if same_size s max then Ok []
      else
        do r <- attempts (fuel + 4) n 0 s;
        match fst r with
        | Stop => Ok [(s, snd r)]
        | GoOn => do r' <- bounded_loop fuel' i (resume i g) max (n + length (snd r)); Ok ((s, snd r) :: r')
        end
  end.
End Loops.

(** ** The two scripts *)
Definition petsc_program : string := "/g/g20/zhang70/LegionSolvers/benchmarks/petsc/PETScSolverBenchmark".
Definition trilinos_program : string := "/g/g20/zhang70/LegionSolvers/benchmarks/trilinos/build/TrilinosSolverBenchmark".
Definition legion_program : string := "/p/gpfs1/zhang70/LegionSolversBuild/cr_cuda_nokokkos_release/BenchmarkStencil".
(** bench_all.py:212-244, 247-281, 283-317: benchmark_petsc, benchmark_trilinos, benchmark_legion_solvers; [n] processes were started before *)
Definition benchmark_petsc (world : nat -> list string -> ended) (fuel : nat) (dim solver : string) (i : iterator) (n : nat) : outcome (problem_size * list (problem_size * list started)) :=
  petsc_loop world (fun s => petsc_args dim s solver) petsc_program "gpu" true fuel i (start_iterator i) n.
Definition benchmark_trilinos (world : nat -> list string -> ended) (fuel : nat) (dim solver : string) (i : iterator) (max : problem_size) (n : nat) : outcome (list (problem_size * list started)) :=
  bounded_loop world (fun s => trilinos_args dim s solver) trilinos_program "gpu" true fuel i (start_iterator i) max n.
Definition benchmark_legion_solvers (world : nat -> list string -> ended) (file : script_file) (nodes : Z) (fuel : nat) (dim solver : string) (i : iterator) (max : problem_size) (n : nat)
  : outcome (list (problem_size * list started)) :=
  bounded_loop world (fun s => legion_solvers_args file nodes dim s solver) legion_program "node" false fuel i (start_iterator i) max n.
(** the number of processes in a record of runs *)
Definition processes_of (l : list (problem_size * list started)) : nat := length (concat (map snd l)).
(** bench_all.py:319-334 *)
Definition petsc_runs : list (string * string * iterator) :=
  [("1D", "cg", Iter1); ("2D", "cg", Iter2); ("3D", "cg", Iter3); ("3D27", "cg", Iter3);
   ("1D", "bcgs", Iter1); ("2D", "bcgs", Iter2); ("3D", "bcgs", Iter3); ("3D27", "bcgs", Iter3);
   ("1D", "gmres", Iter1); ("2D", "gmres", Iter2); ("3D", "gmres", Iter3); ("3D27", "gmres", Iter3)].
(** bench_all.py:337-358; the k-th call uses the maximal size found by the k-th call above *)
Definition trilinos_runs : list (string * string * iterator) :=
  [("1D", "CG", Iter1); ("2D", "CG", Iter2); ("3D", "CG", Iter3); ("3D27", "CG", Iter3);
   ("1D", "BiCGStab", Iter1); ("2D", "BiCGStab", Iter2); ("3D", "BiCGStab", Iter3); ("3D27", "BiCGStab", Iter3);
   ("1D", "GMRES", Iter1); ("2D", "GMRES", Iter2); ("3D", "GMRES", Iter3); ("3D27", "GMRES", Iter3)].
(** bench_all_ls.py:498-533; the k-th call uses MAX_PROBLEM_SIZES[k] *)
Definition legion_runs : list (string * string * iterator) :=
  [("1", "1", Iter1); ("2", "1", Iter2); ("3", "1", Iter3); ("4", "1", Iter3);
   ("1", "2", Iter1); ("2", "2", Iter2); ("3", "2", Iter3); ("4", "2", Iter3);
   ("1", "3", Iter1); ("2", "3", Iter2); ("3", "3", Iter3); ("4", "3", Iter3)].
Fixpoint run_petsc (world : nat -> list string -> ended) (fuel : nat) (runs : list (string * string * iterator)) (n : nat)
  : outcome (list (problem_size * list (problem_size * list started)) * nat) :=
  match runs with
  | [] => Ok ([], n)
  | (dim, solver, i) :: rest =>
      do r <- benchmark_petsc world fuel dim solver i n;
      do r' <- run_petsc world fuel rest (n + processes_of (snd r));
      Ok (r :: fst r', snd r')
  end.
Fixpoint run_bounded (bench : string -> string -> iterator -> problem_size -> nat -> outcome (list (problem_size * list started)))
  (runs : list (string * string * iterator * problem_size)) (n : nat) : outcome (list (list (problem_size * list started))) :=
  match runs with
  | [] => Ok []
  | (dim, solver, i, max) :: rest =>
      do r <- bench dim solver i max n;
      do r' <- run_bounded bench rest (n + processes_of r);
      Ok (r :: r')
  end.
(** bench_all.py:319-358 (the LegionSolvers runs after them are commented out) *)
Definition bench_all (world : nat -> list string -> ended) (fuel : nat)
  : outcome (list (problem_size * list (problem_size * list started)) * list (list (problem_size * list started))) :=
  do r <- run_petsc world fuel petsc_runs 0;
  do r' <- run_bounded (benchmark_trilinos world fuel) (combine trilinos_runs (map fst (fst r))) (snd r);
  Ok (fst r, r').
(** bench_all_ls.py:365-492 *)
Definition max_problem_size_dict : list (Z * list problem_size) :=
  [(1, [Size1 1073741824; Size2 32768 32768; Size3 1024 1024 512; Size3 1024 512 512; Size1 1073741824; Size2 32768 16384; Size3 1024 1024 512; Size3 1024 512 512; Size1 536870912; Size2 32768 16384; Size3 1024 1024 512; Size3 1024 512 512]);
   (2, [Size1 2147483648; Size2 65536 32768; Size3 1024 1024 1024; Size3 1024 1024 512; Size1 2147483648; Size2 32768 32768; Size3 1024 1024 1024; Size3 1024 1024 512; Size1 1073741824; Size2 32768 32768; Size3 1024 1024 1024; Size3 1024 1024 512]);
   (4, [Size1 4294967296; Size2 65536 65536; Size3 2048 1024 1024; Size3 1024 1024 1024; Size1 4294967296; Size2 65536 32768; Size3 2048 1024 1024; Size3 1024 1024 1024; Size1 2147483648; Size2 65536 32768; Size3 2048 1024 1024; Size3 1024 1024 1024]);
   (8, [Size1 8589934592; Size2 131072 65536; Size3 2048 2048 1024; Size3 2048 1024 1024; Size1 8589934592; Size2 65536 65536; Size3 2048 2048 1024; Size3 2048 1024 1024; Size1 4294967296; Size2 65536 65536; Size3 2048 2048 1024; Size3 2048 1024 1024]);
   (16, [Size1 17179869184; Size2 131072 131072; Size3 2048 2048 2048; Size3 2048 2048 1024; Size1 17179869184; Size2 131072 65536; Size3 2048 2048 2048; Size3 2048 2048 1024; Size1 8589934592; Size2 131072 65536; Size3 2048 2048 2048; Size3 2048 2048 1024]);
   (32, [Size1 34359738368; Size2 262144 131072; Size3 4096 2048 2048; Size3 2048 2048 2048; Size1 34359738368; Size2 131072 131072; Size3 4096 2048 2048; Size3 2048 2048 2048; Size1 17179869184; Size2 131072 131072; Size3 4096 2048 2048; Size3 2048 2048 2048]);
   (64, [Size1 34359738368; Size2 262144 131072; Size3 4096 4096 2048; Size3 2048 2048 2048; Size1 34359738368; Size2 262144 131072; Size3 4096 4096 2048; Size3 2048 2048 2048; Size1 34359738368; Size2 131072 131072; Size3 4096 2048 2048; Size3 2048 2048 2048]);
   (128, [Size1 137438953472; Size2 262144 262144; Size3 4096 4096 4096; Size3 4096 2048 2048; Size1 68719476736; Size2 262144 262144; Size3 4096 4096 4096; Size3 4096 2048 2048; Size1 68719476736; Size2 262144 262144; Size3 4096 4096 2048; Size3 4096 2048 2048]);
   (256, [Size1 68719476736; Size2 262144 262144; Size3 4096 4096 4096; Size3 4096 2048 2048; Size1 68719476736; Size2 262144 262144; Size3 4096 4096 4096; Size3 4096 2048 2048; Size1 68719476736; Size2 262144 262144; Size3 4096 4096 2048; Size3 4096 2048 2048])]%Z.
(** bench_all_ls.py:495: MAX_PROBLEM_SIZE_DICT[NUM_NODES]; a missing key raises KeyError *)
Definition max_problem_sizes (nodes : Z) : outcome (list problem_size) :=
  match List.find (fun kv => Z.eqb (fst kv) nodes) max_problem_size_dict with Some (_, l) => Ok l | None => AssertFail end.
(** bench_all_ls.py:495-533 *)
Definition bench_all_ls (world : nat -> list string -> ended) (fuel : nat) (nodes : Z) : outcome (list (list (problem_size * list started))) :=
  do sizes <- max_problem_sizes nodes;
  run_bounded (benchmark_legion_solvers world bench_all_ls_py nodes fuel) (combine legion_runs sizes) 0.
