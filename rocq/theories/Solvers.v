(** Solvers: CGSolver, BiCGStabSolver, GMRESSolver. *)
From Verif Require Import Base Index Outcome Sched Async Arith Launch Vector Matrix Builder Planner.
Set Implicit Arguments.

Section Solvers.
Variable T : Type.
Variable A : arith T.
Variable lg : legion.
Variable reduction : nat -> list T -> T.
Notation M := (M T).
Notation planner := (planner T).
Notation axpy := (pl_axpy A lg).
Notation xpay := (pl_xpay A lg).
Notation scal := (pl_scal A lg).
Notation dot := (pl_dot A lg reduction).
Notation matvec := (pl_matvec A lg).
Notation copy := (pl_copy A lg).
Notation zero_fill := (pl_zero_fill A lg).
(** vec.back(): undefined on an empty vector *)
Definition back {X} (l : list X) : M X := lift (match rev l with [] => UB | x :: _ => Ok x end).

(** the constants SOL and RHS of all solvers *)
Definition SOL := 0.
Definition RHS := 1.

(** *** CGSolver: /repo/src/CGSolver.hpp *)
Definition CG_P := 2. Definition CG_Q := 3. Definition CG_R := 4.   (* lines 18-20 *)
Record cg := mk_cg { cg_pl : planner; cg_norms : list scalar (* residual_norm_squared *); cg_neg1 : scalar }.
(** constructor: /repo/src/CGSolver.hpp:32-44 *)
Definition cg_new (pl0 : planner) : M cg :=
  let* neg1 := scalar_const (aneg A (a1 A)) in
  let* pl := allocate_workspace lg pl0 3 in
  copy pl CG_P RHS ;;
  copy pl CG_R RHS ;;
  let* rr := dot pl CG_R CG_R in
  ret (mk_cg pl [rr] neg1).
(** step: /repo/src/CGSolver.hpp:46-55 *)
Definition cg_step (c : cg) : M cg :=
  let pl := cg_pl c in
  matvec pl CG_Q CG_P ;;
  let* p_norm := dot pl CG_P CG_Q in
  let* r_norm2_old := back (cg_norms c) in
  axpy pl SOL [r_norm2_old; p_norm] CG_P ;;
  axpy pl CG_R [cg_neg1 c; r_norm2_old; p_norm] CG_Q ;;
  let* r_norm2_new := dot pl CG_R CG_R in
  xpay pl CG_P [r_norm2_new; r_norm2_old] CG_R ;;
  ret (mk_cg pl (cg_norms c ++ [r_norm2_new]) (cg_neg1 c)).
Fixpoint cg_steps (k : nat) (c : cg) : M cg :=
  match k with 0 => ret c | S k' => let* c' := cg_steps k' c in cg_step c' end.

(** *** BiCGStabSolver: /repo/src/BiCGStabSolver.hpp *)
Definition BI_P := 2. Definition BI_R := 3. Definition BI_RT := 4. Definition BI_U := 5. Definition BI_V := 6. (* lines 18-22 *)
Record bicg := mk_bicg { bi_pl : planner; bi_rho : list scalar; bi_alpha : list scalar; bi_omega : list scalar;
                         bi_neg1 : scalar; bi_zero : scalar; bi_one : scalar }.
(** constructor: /repo/src/BiCGStabSolver.hpp:36-62 *)
Definition bicg_new (pl0 : planner) : M bicg :=
  let* neg1 := scalar_const (aneg A (a1 A)) in
  let* zero := scalar_const (a0 A) in
  let* one := scalar_const (a1 A) in
  let* pl := allocate_workspace lg pl0 5 in
  copy pl BI_R RHS ;;
  copy pl BI_RT RHS ;;
  zero_fill pl BI_P ;;
  zero_fill pl BI_V ;;
  ret (mk_bicg pl [one] [zero] [one] neg1 zero one).
(** step: /repo/src/BiCGStabSolver.hpp:64-82 *)
Definition bicg_step (c : bicg) : M bicg :=
  let pl := bi_pl c in
  let* rho_new := dot pl BI_R BI_RT in
  let* rho_old := back (bi_rho c) in
  let* t1 := scalar_div A rho_new rho_old in
  let* alpha_old := back (bi_alpha c) in
  let* omega_old := back (bi_omega c) in
  let* t2 := scalar_div A alpha_old omega_old in
  let* beta := scalar_mul A t1 t2 in
  let rho := bi_rho c ++ [rho_new] in
  let* neg_omega := scalar_neg A omega_old in
  axpy pl BI_P [neg_omega] BI_V ;;
  xpay pl BI_P [beta] BI_R ;;
  matvec pl BI_V BI_P ;;
  let* temp := dot pl BI_RT BI_V in
  let* rho_back := back rho in
  axpy pl BI_R [bi_neg1 c; rho_back; temp] BI_V ;;
  let* alpha_new := scalar_div A rho_back temp in
  let alpha := bi_alpha c ++ [alpha_new] in
  matvec pl BI_U BI_R ;;
  let* r_anorm2 := dot pl BI_R BI_U in
  let* u_norm2 := dot pl BI_U BI_U in
  let* omega_new := scalar_div A r_anorm2 u_norm2 in
  let omega := bi_omega c ++ [omega_new] in
  let* alpha_back := back alpha in
  axpy pl SOL [alpha_back] BI_P ;;
  let* omega_back := back omega in
  axpy pl SOL [omega_back] BI_R ;;
  let* neg_omega2 := scalar_neg A omega_back in
  axpy pl BI_R [neg_omega2] BI_U ;;
  ret (mk_bicg pl rho alpha omega (bi_neg1 c) (bi_zero c) (bi_one c)).
Fixpoint bicg_steps (k : nat) (c : bicg) : M bicg :=
  match k with 0 => ret c | S k' => let* c' := bicg_steps k' c in bicg_step c' end.

(** *** GMRESSolver: /repo/src/GMRESSolver.hpp *)
Record gmres := mk_gmres { gm_pl : planner; gm_restart : nat; gm_neg1 : scalar;
                           gm_h : nat -> nat -> scalar (* inner_products[i][j], i <= restart, j < restart *) }.
(** /repo/src/GMRESSolver.hpp:79-81 *)
Definition krylov_basis (i : nat) : nat := i + 2.
(** constructor: /repo/src/GMRESSolver.hpp:32-77.  SIMPLIFICATION: the zero scalars put into inner_products share
    one future; triangular_matrix and coefficients are never read by the code and are omitted. *)
Definition gmres_new (pl0 : planner) (restart : nat) : M gmres :=
  let* neg1 := scalar_const (aneg A (a1 A)) in
  let* pl := allocate_workspace lg pl0 (restart + 1) in
  let* zero := scalar_const (a0 A) in
  ret (mk_gmres pl restart neg1 (fun _ _ => zero)).
Definition set_h (h : nat -> nat -> scalar) (i j : nat) (x : scalar) : nat -> nat -> scalar :=
  fun i' j' => if (i' =? i) && (j' =? j) then x else h i' j'.
(** the inner loop over k: lines 94-100 *)
Definition gmres_orthogonalise (pl : planner) (j : nat) (h : nat -> nat -> scalar) : M (nat -> nat -> scalar) :=
  mfold (seq 0 (j + 1)) h (fun h k =>
    let* d := dot pl (krylov_basis k) (krylov_basis (j + 1)) in
    let h' := set_h h k j d in
    let* neg := scalar_neg A (h' k j) in
    axpy pl (krylov_basis (j + 1)) [neg] (krylov_basis k) ;; ret h').
(** one iteration of the loop over j: lines 92-107 *)
Definition gmres_arnoldi (pl : planner) (restart : nat) (h : nat -> nat -> scalar) (j : nat) : M (nat -> nat -> scalar) :=
  matvec pl (krylov_basis (j + 1)) (krylov_basis j) ;;
  let* h := gmres_orthogonalise pl j h in
  let* d := dot pl (krylov_basis (j + 1)) (krylov_basis (j + 1)) in
  let* sq := scalar_sqrt A d in
  let h := set_h h (j + 1) j sq in
  if j + 1 <? restart
  then let* rs := scalar_rsqrt A d in scal pl (krylov_basis (j + 1)) rs ;; ret h
  else ret h.
(** the residual and its normalisation: lines 86-90 *)
Definition gmres_start (pl : planner) (neg1 : scalar) : M unit :=
  matvec pl (krylov_basis 0) SOL ;;
  xpay pl (krylov_basis 0) [neg1] RHS ;;
  let* rr := dot pl (krylov_basis 0) (krylov_basis 0) in
  let* residual_norm := scalar_rsqrt A rr in
  scal pl (krylov_basis 0) residual_norm.
(** all the inner products passed to the dummy task: lines 112-116 *)
Definition all_h (restart : nat) (h : nat -> nat -> scalar) : list scalar :=
  flat_map (fun i => map (h i) (seq 0 restart)) (seq 0 (restart + 1)).
(** step: /repo/src/GMRESSolver.hpp:83-127; DummyTask returns 1 whatever it is given (UtilityTasks.cpp:96-99) *)
Definition gmres_step (c : gmres) : M gmres :=
  let pl := gm_pl c in
  let restart := gm_restart c in
  gmres_start pl (gm_neg1 c) ;;
  let* h := mfold (seq 0 restart) (gm_h c) (gmres_arnoldi pl restart) in
  let* coeff := scalar_task (all_h restart h) (fun _ => a1 A) in
  mfor (seq 0 restart) (fun j => axpy pl SOL [coeff] (krylov_basis j)) ;;
  ret (mk_gmres pl restart (gm_neg1 c) h).
End Solvers.
