(** FloatCGSpec: the conjugate gradient iteration with rounding errors (specification, independent of the code).
    A run in an IEEE format is a CG iteration in which every quantity is the exact result of the step's formula up to the
    error stated here. *)
From Coq Require Import Reals.
From Coq Require Import Floats.SpecFloat.
From Verif Require Import Base ExactSum LinAlg Float FloatSum.
Set Implicit Arguments.
Local Open Scope R_scope.

Section FloatCG.
Variables p e : Z.
Variable P : Type.
Variable U : list P.
(** the system matrix, the matrix of the magnitudes of its stored entries, and the number of stored entries of each row *)
Variable a : P -> P -> R.
Variable mag : P -> P -> R.
Variable count : P -> nat.

(** [x] is [t] rounded once *)
Definition rounded (t : R) (x : spec_float) : Prop := is_float p e x /\ is_number x /\ Rabs (fvalue x - t) <= unit_roundoff p * Rabs t + tiny p e.
(** [x] is the sum of [f] over [l] up to the error bound for sums *)
Definition summed {I} (l : list I) (f : I -> R) (x : spec_float) : Prop :=
  is_float p e x /\ is_number x /\ Rabs (fvalue x - Rsum f l) <= sum_error p e (length l) (Rsum (fun i => Rabs (f i)) l).
(** all entries are finite floats *)
Definition finite_vector (x : P -> spec_float) : Prop := forall u, In u U -> is_float p e (x u) /\ is_number (x u).
Notation v f := (fun u => fvalue (f u)).

(** solution, residual, direction, recorded residual norm squared; what one step computes on the way: the product of
    matrix and direction, its dot product with the direction, and the two coefficients *)
Record fiterate := mk_fiterate { f_x : P -> spec_float; f_r : P -> spec_float; f_p : P -> spec_float; f_rho : spec_float }.
Record fdata := mk_fdata { f_q : P -> spec_float; f_sigma : spec_float; f_alpha : R; f_beta : spec_float }.
Record fstep (t : fiterate) (d : fdata) (t' : fiterate) : Prop := mk_fstep {
  fs_q : forall u, In u U -> is_float p e (f_q d u) /\ is_number (f_q d u) /\
    Rabs (fvalue (f_q d u) - app_op U a (v (f_p t)) u) <= sum_error p e (count u) (app_op U mag (fun w => Rabs (fvalue (f_p t w))) u);
  fs_rho0 : is_number (f_rho t);
  (** alpha is rho / sigma rounded; if <p, q> overflowed it is 0 *)
  fs_alpha : (summed U (fun u => fvalue (f_p t u) * fvalue (f_q d u)) (f_sigma d) /\ fvalue (f_sigma d) <> 0 /\ exists x, rounded (fvalue (f_rho t) / fvalue (f_sigma d)) x /\ f_alpha d = fvalue x) \/
             (~ is_number (f_sigma d) /\ f_alpha d = 0);
  fs_x : forall u, In u U -> rounded (fvalue (f_x t u) + f_alpha d * fvalue (f_p t u)) (f_x t' u);
  fs_r : forall u, In u U -> rounded (fvalue (f_r t u) - f_alpha d * fvalue (f_q d u)) (f_r t' u);
  fs_rho : summed U (fun u => fvalue (f_r t' u) * fvalue (f_r t' u)) (f_rho t');
  fs_beta : fvalue (f_rho t) <> 0 /\ rounded (fvalue (f_rho t') / fvalue (f_rho t)) (f_beta d);
  fs_p : forall u, In u U -> rounded (fvalue (f_r t' u) + fvalue (f_beta d) * fvalue (f_p t u)) (f_p t' u) }.
(** the iteration starts with residual and direction equal to the right-hand side, whatever the initial solution *)
Record fstart (x0 b : P -> spec_float) (t : fiterate) : Prop := mk_fstart {
  st_x : forall u, In u U -> f_x t u = x0 u;
  st_r : forall u, In u U -> f_r t u = b u;
  st_p : forall u, In u U -> f_p t u = b u;
  st_rho : is_number (f_rho t) -> summed U (fun u => fvalue (b u) * fvalue (b u)) (f_rho t) }.
Definition float_cg (x0 b : P -> spec_float) (k : nat) (t : nat -> fiterate) (d : nat -> fdata) : Prop :=
  fstart x0 b (t 0%nat) /\ (forall j, (j < k)%nat -> fstep (t j) (d j) (t (S j))).

(** *** The residual gap: how far the recursively updated residual is from b - A x *)
Definition gap (b : P -> spec_float) (t : fiterate) (u : P) : R := fvalue (b u) - app_op U a (v (f_x t)) u - fvalue (f_r t u).
(** the rounding errors one step adds to it *)
Definition drift (t : fiterate) (d : fdata) (u : P) : R :=
  Rsum (fun w => Rabs (a u w) * (unit_roundoff p * Rabs (fvalue (f_x t w) + f_alpha d * fvalue (f_p t w)) + tiny p e)) U
  + Rabs (f_alpha d) * sum_error p e (count u) (app_op U mag (fun w => Rabs (fvalue (f_p t w))) u)
  + (unit_roundoff p * Rabs (fvalue (f_r t u) - f_alpha d * fvalue (f_q d u)) + tiny p e).
End FloatCG.
