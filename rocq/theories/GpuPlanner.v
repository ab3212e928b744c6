(** GpuPlanner: matrix-vector products whose point tasks run on CPUs or GPUs as the mapper decides, the planner's product
    built from them, and the solvers on top.  The GPU point tasks (/repo/src/COOMatrixTasks.cu:13-146,
    CSRMatrixTasks.cu:14-149) are given here by their effect on the logical regions; Gpu.v has the same tasks as cuSPARSE
    calls on device memory, and PropsGpuPlanner.v proves that the two agree. *)
From Verif Require Import Base Index Outcome Sched Async Arith Launch Vector Matrix Builder Planner Solvers Gpu.
Set Implicit Arguments.

(** ** When the cuSPARSE calls are legal (one-dimensional pieces; Gpu.v) *)
(** Point<1> is its coordinate: /repo/src/CuSPARSEHelpers.hpp:62-66 *)
Definition coord (p : point) : Z := hd 0%Z p.
Definition one_dimensional (ps : list point) : bool := forallb (fun p => length p =? 1) ps.
(** every element relates to the next one *)
Fixpoint adjacent (R : Z -> Z -> bool) (l : list Z) : bool :=
  match l with
  | a :: ((b :: _) as rest) => R a b && adjacent R rest
  | _ => true
  end.
(** a sequence of coordinates without gaps *)
Definition gapless (l : list Z) : bool := adjacent (fun a b => b =? a + 1)%Z l.
(** an index space as Legion enumerates it: one-dimensional, increasing; cuSPARSE indices are zero based *)
Definition zero_based (ps : list point) : bool :=
  one_dimensional ps && adjacent Z.ltb (map coord ps) && forallb (fun p => 0 <=? coord p)%Z ps.

Section GpuTasks.
Variable T : Type.
Variable A : arith T.

(** COO (/repo/src/COOMatrixTasks.cu:71-99): the entries of the piece are passed as one block of memory, sorted by row,
    with rows in the destination piece and columns in the source piece. *)
Definition coo_gpu_legal (m : coo T) (piece kpiece ghost : list point) : bool :=
  zero_based piece && zero_based ghost && one_dimensional kpiece && gapless (map coord kpiece) &&
  forallb (fun kp => mem (co_row m kp) piece && mem (co_col m kp) ghost) kpiece &&
  adjacent Z.leb (map (fun kp => coord (co_row m kp)) kpiece).
(** the row pointer of a row is one interval, possibly empty *)
Definition row_first (m : csr T) (p : point) : Z := coord (lo (cs_rowptr m p)).
Definition row_last (m : csr T) (p : point) : Z := coord (hi (cs_rowptr m p)).
Fixpoint rows_consecutive (m : csr T) (piece : list point) : bool :=
  match piece with
  | p :: ((q :: _) as rest) => (row_first m q =? row_last m p + 1)%Z && rows_consecutive m rest
  | _ => true
  end.
(** CSR (/repo/src/CSRMatrixTasks.cu:71-108, CuSPARSEHelpers.hpp:10-102): the row pointers of the piece are consecutive
    intervals that make up the kernel piece.  SIMPLIFICATION: with other row pointers the call multiplies by a different
    matrix (C46); the model then says [UB]. *)
Definition csr_gpu_legal (m : csr T) (piece kpiece ghost : list point) : bool :=
  one_dimensional piece && adjacent Z.ltb (map coord piece) && zero_based ghost && one_dimensional kpiece &&
  forallb (fun p => (length (lo (cs_rowptr m p)) =? 1) && (length (hi (cs_rowptr m p)) =? 1) &&
                    (row_first m p <=? row_last m p + 1)%Z) piece &&
  rows_consecutive m piece &&
  (match piece with
   | [] => true
   | p :: _ => if list_eq_dec Z.eq_dec (map coord kpiece) (zrange (row_first m p) (row_last m (last piece p))) then true else false
   end) &&
  forallb (fun kp => mem (cs_col m kp) ghost) kpiece.

(** the products of the entries [kps] with the source values [xs] of their columns *)
Definition products (entry : point -> T) (kps : list point) (xs : list T) : list T :=
  map (fun ex => amul A (entry (fst ex)) (snd ex)) (combine kps xs).
(** One row of cusparseSpMV.  [gs] adds the products in whatever order cuSPARSE chooses.
    COO, beta = 1 (COOMatrixTasks.cu:108): rows without entries are not touched. *)
Definition coo_gpu_row (gs : point -> list T -> T) (m : coo T) (dst src : pvec) (kpiece : list point) (p : point) : list (step loc T) :=
  match filter (fun kp => if point_eq_dec (co_row m kp) p then true else false) kpiece with
  | [] => []
  | kps => [mk_step (at_point dst p) (at_point dst p :: map (fun kp => at_point src (co_col m kp)) kps)
              (fun vs => match vs with y :: xs => aadd A y (gs p (products (co_entry m) kps xs)) | [] => a0 A end)]
  end.
(** CSR, beta = 0 (CSRMatrixTasks.cu:111): every row of the piece is overwritten. *)
Definition csr_gpu_row (gs : point -> list T -> T) (m : csr T) (dst src : pvec) (kpiece : list point) (p : point) : step loc T :=
  let kps := filter (contains (cs_rowptr m p)) kpiece in
  mk_step (at_point dst p) (map (fun kp => at_point src (cs_col m kp)) kps) (fun xs => gs p (products (cs_entry m) kps xs)).
(** COOMatvecTask::cuda_task_body: /repo/src/COOMatrixTasks.cu:13-146 (no entries: returns at line 74) *)
Definition coo_gpu_task (gs : point -> list T -> T) (m : coo T) (dst src : pvec) (piece kpiece ghost : list point) : outcome (list (step loc T)) :=
  match kpiece with
  | [] => Ok []
  | _ => if coo_gpu_legal m piece kpiece ghost then Ok (flat_map (coo_gpu_row gs m dst src kpiece) piece) else UB
  end.
(** CSRMatvecTask::cuda_task_body: /repo/src/CSRMatrixTasks.cu:14-149 (assert(output_domain.dense()), line 71; no rows:
    returns at line 74) *)
Definition csr_gpu_task (gs : point -> list T -> T) (m : csr T) (dst src : pvec) (piece kpiece ghost : list point) : outcome (list (step loc T)) :=
  oassert (dom_dense (map coord piece))
    (match piece with
     | [] => Ok []
     | _ => if csr_gpu_legal m piece kpiece ghost then Ok (map (csr_gpu_row gs m dst src kpiece) piece) else UB
     end).

(** Where point tasks run, and how the GPUs add: for the product issued when the handle allocator is in state [st] (a
    different state for every product of a solver), matrix number [j], colour [c]. *)
Record mapping := mk_mapping {
  on_gpu : ist -> nat -> nat -> bool;
  gpu_sum : ist -> nat -> nat -> point -> list T -> T }.
Definition legal_mapping (mp : mapping) : Prop := forall st j c p l, reduces_to A l (gpu_sum mp st j c p l).

Variable lg : legion.
Variable mp : mapping.

(** one point task: a CPU and a GPU variant of the same task are registered (/repo/src/LegionUtilities.hpp:115-205), the
    mapper picks one *)
Definition mapped_task (st : ist) (j : nat) (m : matrix T) (dst src : pvec) (c : nat) (piece kpiece ghost : list point) : outcome (list (step loc T)) :=
  if on_gpu mp st j c
  then match m with
       | COO m => coo_gpu_task (gpu_sum mp st j c) m dst src piece kpiece ghost
       | CSR m => csr_gpu_task (gpu_sum mp st j c) m dst src piece kpiece ghost
       end
  else match m with
       | COO m => Ok (coo_task A m dst src piece kpiece ghost)
       | CSR m => csr_task A m dst src piece ghost kpiece
       end.
Definition mapped_tasks (st : ist) (j : nat) (m : matrix T) (dst src : pvec) (kps ghosts : list (list point)) : outcome (list (list (step loc T))) :=
  sequence (map (fun x => let '(c, (piece, (kpiece, ghost))) := x in mapped_task st j m dst src c piece kpiece ghost)
    (combine (seq 0 (length (pieces lg dst))) (combine (pieces lg dst) (combine kps ghosts)))).
(** COOMatrix::matvec, CSRMatrix::matvec: the launch is the same for both processor kinds
    (/repo/src/COOMatrix.cpp:145-191, CSRMatrix.cpp:159-214) *)
Definition mapped_matvec (st : ist) (j : nat) (m : matrix T) (dst src : pvec) (kps ghosts : list (list point)) : outcome (launch T) :=
  if (length kps =? length (pieces lg dst)) && (length ghosts =? length (pieces lg dst)) &&
     match m with COO _ => true | CSR c => part_parent lg (pv_part dst) =? cs_rows c end
  then
    do tasks <- mapped_tasks st j m dst src kps ghosts;
    submit (mk_launch tasks (matvec_reqs lg dst src ghosts) [] None [] [])
  else UB.
(** SquarePlanner::matvec: /repo/src/SquarePlanner.hpp:340-357 *)
Definition mapped_pl_matvec (pl : planner T) (dst_idx src_idx : nat) : M T unit :=
  pl_zero_fill A lg pl dst_idx ;;
  mfor (combine (seq 0 (length (pl_mats pl))) (pl_mats pl)) (fun jpm =>
    let* y := lift (get_vector pl dst_idx (pm_range (snd jpm))) in
    let* x := lift (get_vector pl src_idx (pm_domain (snd jpm))) in
    fun st => issue (mapped_matvec st (fst jpm) (pm_matrix (snd jpm)) y x (pm_kernel (snd jpm)) (pm_ghost (snd jpm))) st).
End GpuTasks.

(** ** The solvers of Solvers.v with the product as a parameter; PropsGpuPlanner.v checks that with the CPU product they
    are Solvers.v's, definition by definition. *)
Section SolversWith.
Variable T : Type.
Variable A : arith T.
Variable lg : legion.
Variable reduction : nat -> list T -> T.
Variable product : planner T -> nat -> nat -> M T unit.
Notation M := (M T).
Notation planner := (planner T).
Notation axpy := (pl_axpy A lg).
Notation xpay := (pl_xpay A lg).
Notation scal := (pl_scal A lg).
Notation dot := (pl_dot A lg reduction).
(** /repo/src/CGSolver.hpp:46-55 *)
Definition cg_step_with (c : cg T) : M (cg T) :=
  let pl := cg_pl c in
  product pl CG_Q CG_P ;;
  let* p_norm := dot pl CG_P CG_Q in
  let* r_norm2_old := back T (cg_norms c) in
  axpy pl SOL [r_norm2_old; p_norm] CG_P ;;
  axpy pl CG_R [cg_neg1 c; r_norm2_old; p_norm] CG_Q ;;
  let* r_norm2_new := dot pl CG_R CG_R in
  xpay pl CG_P [r_norm2_new; r_norm2_old] CG_R ;;
  ret (mk_cg pl (cg_norms c ++ [r_norm2_new]) (cg_neg1 c)).
Fixpoint cg_steps_with (k : nat) (c : cg T) : M (cg T) :=
  match k with 0 => ret c | S k' => let* c' := cg_steps_with k' c in cg_step_with c' end.
Definition cg_run_with (pl0 : planner) (k : nat) : M (cg T) :=
  let* c := cg_new A lg reduction pl0 in cg_steps_with k c.
(** /repo/src/BiCGStabSolver.hpp:64-82 *)
Definition bicg_step_with (c : bicg T) : M (bicg T) :=
  let pl := bi_pl c in
  let* rho_new := dot pl BI_R BI_RT in
  let* rho_old := back T (bi_rho c) in
  let* t1 := scalar_div A rho_new rho_old in
  let* alpha_old := back T (bi_alpha c) in
  let* omega_old := back T (bi_omega c) in
  let* t2 := scalar_div A alpha_old omega_old in
  let* beta := scalar_mul A t1 t2 in
  let rho := bi_rho c ++ [rho_new] in
  let* neg_omega := scalar_neg A omega_old in
  axpy pl BI_P [neg_omega] BI_V ;;
  xpay pl BI_P [beta] BI_R ;;
  product pl BI_V BI_P ;;
  let* temp := dot pl BI_RT BI_V in
  let* rho_back := back T rho in
  axpy pl BI_R [bi_neg1 c; rho_back; temp] BI_V ;;
  let* alpha_new := scalar_div A rho_back temp in
  let alpha := bi_alpha c ++ [alpha_new] in
  product pl BI_U BI_R ;;
  let* r_anorm2 := dot pl BI_R BI_U in
  let* u_norm2 := dot pl BI_U BI_U in
  let* omega_new := scalar_div A r_anorm2 u_norm2 in
  let omega := bi_omega c ++ [omega_new] in
  let* alpha_back := back T alpha in
  axpy pl SOL [alpha_back] BI_P ;;
  let* omega_back := back T omega in
  axpy pl SOL [omega_back] BI_R ;;
  let* neg_omega2 := scalar_neg A omega_back in
  axpy pl BI_R [neg_omega2] BI_U ;;
  ret (mk_bicg pl rho alpha omega (bi_neg1 c) (bi_zero c) (bi_one c)).
Fixpoint bicg_steps_with (k : nat) (c : bicg T) : M (bicg T) :=
  match k with 0 => ret c | S k' => let* c' := bicg_steps_with k' c in bicg_step_with c' end.
Definition bicg_run_with (pl0 : planner) (k : nat) : M (bicg T) :=
  let* c := bicg_new A lg pl0 in bicg_steps_with k c.
(** /repo/src/GMRESSolver.hpp:83-127 *)
Definition gmres_arnoldi_with (pl : planner) (restart : nat) (h : nat -> nat -> scalar) (j : nat) : M (nat -> nat -> scalar) :=
  product pl (krylov_basis (j + 1)) (krylov_basis j) ;;
  let* h := gmres_orthogonalise A lg reduction pl j h in
  let* d := dot pl (krylov_basis (j + 1)) (krylov_basis (j + 1)) in
  let* sq := scalar_sqrt A d in
  let h := set_h h (j + 1) j sq in
  if j + 1 <? restart
  then let* rs := scalar_rsqrt A d in scal pl (krylov_basis (j + 1)) rs ;; ret h
  else ret h.
Definition gmres_start_with (pl : planner) (neg1 : scalar) : M unit :=
  product pl (krylov_basis 0) SOL ;;
  xpay pl (krylov_basis 0) [neg1] RHS ;;
  let* rr := dot pl (krylov_basis 0) (krylov_basis 0) in
  let* residual_norm := scalar_rsqrt A rr in
  scal pl (krylov_basis 0) residual_norm.
Definition gmres_step_with (c : gmres T) : M (gmres T) :=
  let pl := gm_pl c in
  let restart := gm_restart c in
  gmres_start_with pl (gm_neg1 c) ;;
  let* h := mfold (seq 0 restart) (gm_h c) (gmres_arnoldi_with pl restart) in
  let* coeff := scalar_task (all_h restart h) (fun _ => a1 A) in
  mfor (seq 0 restart) (fun j => axpy pl SOL [coeff] (krylov_basis j)) ;;
  ret (mk_gmres pl restart (gm_neg1 c) h).
Fixpoint gmres_steps_with (k : nat) (c : gmres T) : M (gmres T) :=
  match k with 0 => ret c | S k' => let* c' := gmres_steps_with k' c in gmres_step_with c' end.
Definition gmres_run_with (pl0 : planner) (restart k : nat) : M (gmres T) :=
  let* c := gmres_new A lg pl0 restart in gmres_steps_with k c.
End SolversWith.
