(** BuildScripts: the Python scripts that build Legion, Kokkos and this project: /repo/build_utilities.py, build_dependencies.py, build_legion.py, refresh_cmake.py, make_all.py.
    What is modelled: the directory tree, the working directory, exceptions, and the commands started with their arguments; what a command does to the directory tree and
    whether it succeeds is given by an arbitrary function of everything that has happened so far.
    SIMPLIFICATION: SCRATCH_DIR and LIB_PREFIX are absolute paths without symbolic links; mkdir, rmtree and chdir fail only because of what exists (not for lack of permission);
    messages are not modelled. *)
From Coq Require Import String List ZArith Bool.
From Verif Require Import TestAll.
Import ListNotations.
Set Implicit Arguments.
Local Open Scope string_scope.
Local Open Scope list_scope.

(** ** Python's os, shutil and subprocess *)
(** an absolute path: its components; os.path.join adds components at the end *)
Definition path : Type := list string.
Definition path_eqb (p q : path) : bool := if list_eq_dec string_dec p q then true else false.
(** [starts d p]: p is d or lies below d *)
Fixpoint starts (d p : path) : bool :=
  match d, p with
  | [], _ => true
  | x :: d', y :: p' => String.eqb x y && starts d' p'
  | _ :: _, [] => false
  end.
Inductive node := Nothing | File | Dir.
(** an argument of a command: text, a path, or -Dkey=value (build_utilities.py:148-152: a bool is written ON or OFF, anything else as it is) *)
Inductive value := VBool (b : bool) | VInt (z : Z) | VText (s : string) | VPath (p : path).
Inductive word := W (s : string) | P (p : path) | N (z : Z) | D (key : string) (v : value).
(** the result of a command: it cannot be started, or it ends with return code 0 or not *)
Inductive ending := NotStarted | Succeeded | NotSucceeded.
Inductive event := Removed (p : path) | Created (p : path) | Ran (dir : path) (cmd : list word) (e : ending).
Record computer := mk_computer { files : path -> node; cwd : path; past : list event (* oldest first *) }.
(** what a command, started in a directory, does to the directory tree, and how it ends; this may depend on everything that has happened before *)
Definition effect_of_commands : Type := list event -> path -> list word -> (path -> node) -> (path -> node) * ending.
(** a piece of a script: None is an exception *)
Definition script (A : Type) : Type := computer -> computer * option A.
Definition ret {A} (a : A) : script A := fun st => (st, Some a).
Definition raise {A} : script A := fun st => (st, None).
Definition bind {A B} (m : script A) (k : A -> script B) : script B := fun st => match m st with (st', Some a) => k a st' | (st', None) => (st', None) end.
Notation "m ;; k" := (bind m (fun _ => k)) (at level 61, right associativity).
Fixpoint for_each {X} (l : list X) (f : X -> script unit) : script unit := match l with [] => ret tt | x :: rest => f x ;; for_each rest f end.
Definition assert (b : bool) : script unit := if b then ret tt else raise.
Definition is_dir (n : node) : bool := match n with Dir => true | _ => false end.
Definition exists_ (n : node) : bool := match n with Nothing => false | _ => true end.
Definition query {A} (q : (path -> node) -> A) : script A := fun st => (st, Some (q (files st))).
(** os.getcwd: raises FileNotFoundError if the working directory has been removed *)
Definition getcwd : script path := fun st => (st, if is_dir (files st (cwd st)) then Some (cwd st) else None).
(** os.mkdir: the parent must be a directory and the name must be free *)
Definition mkdir (p : path) : script unit := fun st =>
  if is_dir (files st (removelast p)) && negb (exists_ (files st p))
  then (mk_computer (fun q => if path_eqb q p then Dir else files st q) (cwd st) (past st ++ [Created p]), Some tt) else (st, None).
(** shutil.rmtree *)
Definition rmtree (p : path) : script unit := fun st =>
  (mk_computer (fun q => if starts p q then Nothing else files st q) (cwd st) (past st ++ [Removed p]), Some tt).
(** os.chdir *)
Definition chdir (p : path) : script unit := fun st => if is_dir (files st p) then (mk_computer (files st) p (past st), Some tt) else (st, None).

(** ** build_utilities.py *)
(** lines 13-14: empty arguments are left out *)
Definition underscore_join (l : list string) : string := String.concat "_" (filter (fun s => negb (String.eqb s "")) l).
(** lines 24-27 *)
Definition create_directory (p : path) : script unit := bind (query (fun t => negb (exists_ (t p)))) assert ;; mkdir p.
(** lines 39-45 *)
Definition remove_directory (p : path) : script unit :=
  bind (query (fun t => exists_ (t p))) (fun e => if e then bind (query (fun t => is_dir (t p))) assert ;; rmtree p else ret tt).
(** lines 48-57: whatever happens in the body, the old directory is entered again; an exception there replaces the one of the body *)
Definition change_directory (p : path) (body : script unit) : script unit :=
  bind getcwd (fun prev => chdir p ;; (fun st => let '(st1, r) := body st in match chdir prev st1 with (st2, Some _) => (st2, r) | (st2, None) => (st2, None) end)).
Section Commands.
Variable env : effect_of_commands.
(** lines 60-62 *)
Definition run (check : bool) (cmd : list word) : script unit := fun st =>
  let '(t, e) := env (past st) (cwd st) cmd (files st) in
  (mk_computer t (cwd st) (past st ++ [Ran (cwd st) cmd e]), match e with Succeeded => Some tt | NotSucceeded => if check then None else Some tt | NotStarted => None end).
(** lines 70-129, the case used: branch, path and commit are given *)
Definition clone (url branch dir commit : string) : script unit :=
  run true [W "git"; W "clone"; W "--branch"; W branch; W url; W dir] ;;
  bind getcwd (fun here => change_directory (here ++ [dir]) (run true [W "git"; W "checkout"; W commit])).
(** lines 135-171; [cores]: os.cpu_count() *)
Definition cmake (cores : option Z) (build_path : path) (defines : list (string * value)) (build test install : bool) (cmake_cmd : list word) : script unit :=
  create_directory build_path ;;
  change_directory build_path (
    run true (cmake_cmd ++ map (fun kv => D (fst kv) (snd kv)) defines) ;;
    (if build then run true [W "cmake"; W "--build"; W "."; W "--parallel"; N (match cores with Some n => n | None => 8%Z end)] else ret tt) ;;
    (if test then run false [W "ctest"] else ret tt) ;;
    (if install then run true [W "make"; W "install"] else ret tt)).
End Commands.
(** lines 177-218 *)
Inductive machine := UNKNOWN | SAPLING | PIZDAINT | LASSEN | SUMMIT.
Definition gasnet_conduits (m : machine) : string := match m with UNKNOWN => "mpi" | SAPLING => "ibv" | PIZDAINT => "mpi" | LASSEN => "ibv" | SUMMIT => "ibv" end.
Definition no_rdtsc (m : machine) : bool := match m with LASSEN | SUMMIT => true | _ => false end.
Record settings := mk_settings { scratch_dir : path; lib_prefix : path; the_machine : machine; cpu_count : option Z }.

(** ** build_dependencies.py *)
(** lines 25-26 *)
Definition kokkos_lib_name (use_cuda : bool) : string := if use_cuda then "kokkos-4.5.01-cuda" else "kokkos-4.5.01-nocuda".
(** lines 29-43 *)
Definition kokkos_cmake_path (s : settings) (use_cuda : bool) : path :=
  lib_prefix s ++ [kokkos_lib_name use_cuda; (match the_machine s with SAPLING => "lib" | _ => "lib64" end); "cmake"; "Kokkos"].
(** lines 46-48 *)
Definition kokkos_nvcc_wrapper_path (s : settings) : path := lib_prefix s ++ [kokkos_lib_name true; "bin"; "nvcc_wrapper"].
(** lines 60-84 *)
Definition kokkos_defines (s : settings) (use_cuda : bool) : list (string * value) :=
  [("CMAKE_CXX_STANDARD", VInt 17); ("CMAKE_BUILD_TYPE", VText "Release"); ("CMAKE_INSTALL_PREFIX", VPath (lib_prefix s ++ [kokkos_lib_name use_cuda]));
   ("Kokkos_ENABLE_SERIAL", VBool true); ("Kokkos_ENABLE_OPENMP", VBool true)] ++
  (if use_cuda then [("Kokkos_ENABLE_CUDA", VBool true); ("Kokkos_ENABLE_CUDA_LAMBDA", VBool true); ("Kokkos_ENABLE_CUDA_CONSTEXPR", VBool true);
                     ("Kokkos_ENABLE_CUDA_LDG_INTRINSIC", VBool true)] else []) ++
  [("Kokkos_ENABLE_TESTS", VBool true)] ++
  (if no_rdtsc (the_machine s) then ("Kokkos_ARCH_POWER9", VBool true) :: (if use_cuda then [("Kokkos_ARCH_VOLTA70", VBool true)] else []) else []).
(** main, lines 51-86 *)
Definition build_dependencies (env : effect_of_commands) (s : settings) (argv : list string) : script unit :=
  if existsb (String.eqb "--skip-kokkos") argv then ret tt
  else
    chdir (scratch_dir s) ;;
    remove_directory (scratch_dir s ++ ["kokkos-4.5.01"]) ;;
    run env true [W "wget"; W "https://github.com/kokkos/kokkos/archive/refs/tags/4.5.01.zip"] ;;
    run env true [W "unzip"; W "4.5.01.zip"] ;;
    change_directory (scratch_dir s ++ ["kokkos-4.5.01"]) (
      cmake env (cpu_count s) (scratch_dir s ++ ["kokkos-4.5.01"; "build-cuda"]) (kokkos_defines s true) true true true [W "cmake"; W ".."] ;;
      cmake env (cpu_count s) (scratch_dir s ++ ["kokkos-4.5.01"; "build-nocuda"]) (kokkos_defines s false) true true true [W "cmake"; W ".."]).

(** ** build_legion.py *)
(** lines 32-44, as in TestAll.legion_branches and TestAll.build_types *)
Definition legion_branches : list (string * string * string) := [("master", "master", "master"); ("r2412", "legion-24.12.0", "legion-24.12.0")].
Definition build_types : list (string * string) := [("debug", "Debug"); ("release", "RelWithDebInfo")].
(** lines 47-52 *)
Definition cuda_tag (b : bool) : string := if b then "cuda" else "nocuda".
Definition kokkos_tag (b : bool) : string := if b then "kokkos" else "nokokkos".
(** a configuration *)
Record config := mk_config { branch_tag : string; use_cuda : bool; use_kokkos : bool; build_tag : string; build_type : string }.
(** lines 55-59; the working directory is SCRATCH_DIR *)
Definition legion_dir (tag : string) : string := underscore_join ["legion"; tag].
Definition clone_legion (env : effect_of_commands) (s : settings) (tag name commit : string) : script unit :=
  remove_directory (scratch_dir s ++ [legion_dir tag]) ;;
  clone env "https://gitlab.com/StanfordLegion/legion.git" name (legion_dir tag) commit.
(** lines 62-74 *)
Definition legion_library_path (s : settings) (c : config) : path :=
  lib_prefix s ++ [underscore_join ["legion"; branch_tag c; cuda_tag (use_cuda c); kokkos_tag (use_kokkos c); build_tag c]].
(** lines 84-109 *)
Definition legion_defines (s : settings) (c : config) : list (string * value) :=
  [("CMAKE_CXX_STANDARD", VInt 17); ("CMAKE_BUILD_TYPE", VText (build_type c)); ("CMAKE_INSTALL_PREFIX", VPath (legion_library_path s c));
   ("Legion_MAX_NUM_NODES", VInt 4096); ("Legion_MAX_NUM_PROCS", VInt 256); ("Legion_USE_OpenMP", VBool true); ("Legion_USE_CUDA", VBool (use_cuda c));
   ("Legion_NETWORKS", VText "gasnetex"); ("Legion_EMBED_GASNet", VBool true); ("GASNet_CONDUIT", VText (gasnet_conduits (the_machine s)))] ++
  (if no_rdtsc (the_machine s) then [("CMAKE_CXX_FLAGS", VText "-DREALM_TIMERS_USE_RDTSC=0"); ("CMAKE_CUDA_FLAGS", VText "-DREALM_TIMERS_USE_RDTSC=0")] else []) ++
  (if use_kokkos c then
     ("Legion_USE_Kokkos", VBool true) ::
     (if use_cuda c then [("Kokkos_DIR", VPath (kokkos_cmake_path s true)); ("KOKKOS_CXX_COMPILER", VPath (kokkos_nvcc_wrapper_path s))]
      else [("Kokkos_DIR", VPath (kokkos_cmake_path s false))])
   else []).
(** lines 77-122; the working directory is the clone *)
Definition legion_build_dir (c : config) : string := underscore_join ["build"; branch_tag c; cuda_tag (use_cuda c); kokkos_tag (use_kokkos c); build_tag c].
Definition cmake_legion (env : effect_of_commands) (s : settings) (c : config) : script unit :=
  remove_directory (legion_library_path s c) ;;
  bind getcwd (fun here => cmake env (cpu_count s) (here ++ [legion_build_dir c]) (legion_defines s c) true false true [W "cmake"; W ".."]).
(** lines 126-136 *)
Definition cuda_kokkos_configs (argv : list string) : list (bool * bool) :=
  let has x := existsb (String.eqb x) argv in
  let l0 := [(false, false); (false, true); (true, false); (true, true)] in
  let l1 := if has "--force-cuda" then filter (fun c => fst c) l0 else l0 in
  let l2 := if has "--skip-cuda" then filter (fun c => negb (fst c)) l1 else l1 in
  let l3 := if has "--force-kokkos" then filter (fun c => snd c) l2 else l2 in
  if has "--skip-kokkos" then filter (fun c => negb (snd c)) l3 else l3.
(** main, lines 125-146 *)
Definition build_legion (env : effect_of_commands) (s : settings) (argv : list string) : script unit :=
  chdir (scratch_dir s) ;;
  for_each legion_branches (fun '(tag, name, commit) =>
    clone_legion env s tag name commit ;;
    change_directory (scratch_dir s ++ [legion_dir tag]) (
      for_each build_types (fun '(btag, btype) =>
        for_each (cuda_kokkos_configs argv) (fun '(c, k) => cmake_legion env s (mk_config tag c k btag btype))))).

(** ** refresh_cmake.py *)
(** lines 25-34 *)
Definition legion_solvers_build_path (s : settings) (c : config) : path :=
  scratch_dir s ++ ["LegionSolversBuild"; underscore_join [branch_tag c; cuda_tag (use_cuda c); kokkos_tag (use_kokkos c); build_tag c]].
(** lines 51-66 *)
Definition refresh_defines (s : settings) (c : config) : list (string * value) :=
  [("CMAKE_CXX_STANDARD", VInt 17); ("CMAKE_CXX_FLAGS", VText "-Wall -Wextra -pedantic -Wfatal-errors"); ("CMAKE_BUILD_TYPE", VText (build_type c));
   ("Legion_DIR", VPath (legion_library_path s c ++ ["share"; "Legion"; "cmake"]))] ++
  (if use_kokkos c then [("Kokkos_DIR", VPath (if use_cuda c then kokkos_cmake_path s true else kokkos_cmake_path s false))] else []).
(** the body of the loops, lines 42-74 *)
Definition refresh_one (env : effect_of_commands) (s : settings) (c : config) : script unit :=
  bind (query (fun t => is_dir (t (legion_library_path s c)))) (fun here =>
    if here then
      remove_directory (legion_solvers_build_path s c) ;;
      bind getcwd (fun source => cmake env (cpu_count s) (legion_solvers_build_path s c) (refresh_defines s c) false false false [W "cmake"; P source])
    else ret tt).
(** main, lines 37-74 *)
Definition refresh_cmake (env : effect_of_commands) (s : settings) : script unit :=
  for_each legion_branches (fun '(tag, _, _) => for_each build_types (fun '(btag, btype) =>
    for_each [false; true] (fun c => for_each [false; true] (fun k => refresh_one env s (mk_config tag c k btag btype))))).

(** ** make_all.py, lines 10-22 *)
Definition make_one (env : effect_of_commands) (s : settings) (c : config) : script unit :=
  bind (query (fun t => is_dir (t (legion_solvers_build_path s c)))) (fun here =>
    if here then change_directory (legion_solvers_build_path s c) (run env true [W "cmake"; W "--build"; W "."; W "--parallel"]) else ret tt).
Definition make_all (env : effect_of_commands) (s : settings) : script unit :=
  for_each legion_branches (fun '(tag, _, _) => for_each build_types (fun '(btag, btype) =>
    for_each [false; true] (fun c => for_each [false; true] (fun k => make_one env s (mk_config tag c k btag btype))))).
