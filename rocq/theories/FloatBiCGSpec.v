(** FloatBiCGSpec: the BiCGStab iteration with rounding errors (specification, independent of the code).
    A run in an IEEE format is a BiCGStab iteration in which every quantity is the exact result of the step's formula up to
    the error stated here. *)
From Coq Require Import Reals.
From Coq Require Import Floats.SpecFloat.
From Verif Require Import Base ExactSum LinAlg Float FloatSum FloatCGSpec.
Set Implicit Arguments.
Local Open Scope R_scope.

Section FloatBiCG.
Variables p e : Z.
Variable P : Type.
Variable U : list P.
(** the system matrix, the matrix of the magnitudes of its stored entries, and the number of stored entries of each row *)
Variable a : P -> P -> R.
Variable mag : P -> P -> R.
Variable count : P -> nat.
(** the right-hand side, which is also the shadow residual *)
Variable b : P -> spec_float.
Notation v f := (fun u => fvalue (f u)).

(** [q] is the product of the matrix with [x], every entry up to the error bound for sums *)
Definition product_error (x : P -> spec_float) (u : P) : R := sum_error p e (count u) (app_op U mag (fun w => Rabs (fvalue (x w))) u).
Definition multiplied (x q : P -> spec_float) : Prop := forall u, In u U ->
  is_float p e (q u) /\ is_number (q u) /\ Rabs (fvalue (q u) - app_op U a (v x) u) <= product_error x u.
(** [x] is the quotient of [num] by the sum of [f], rounded once, the sum being nonzero; if the sum overflowed, [x] is 0 *)
Definition quotient (num den x : spec_float) (f : P -> R) : Prop :=
  (summed p e U f den /\ fvalue den <> 0 /\ rounded p e (fvalue num / fvalue den) x) \/ (~ is_number den /\ is_float p e x /\ is_number x /\ fvalue x = 0).

(** solution, residual, direction, product of matrix and direction; the last rho, alpha and omega *)
Record fbiterate := mk_fbiterate { fb_x : P -> spec_float; fb_r : P -> spec_float; fb_p : P -> spec_float; fb_v : P -> spec_float;
  fb_rho : spec_float; fb_alpha : spec_float; fb_omega : spec_float }.
(** what one step computes on the way: rho'/rho, alpha/omega and their product beta; p - omega v; <b, v'>; the residual of
    the half step and its product with the matrix; their dot product and the squared norm of the latter; the solution of
    the half step *)
Record fbdata := mk_fbdata { fb_t1 : spec_float; fb_t2 : spec_float; fb_beta : spec_float; fb_p1 : P -> spec_float; fb_sigma : spec_float;
  fb_s : P -> spec_float; fb_t : P -> spec_float; fb_tau : spec_float; fb_nu : spec_float; fb_x1 : P -> spec_float }.
Record fbstep (t : fbiterate) (d : fbdata) (t' : fbiterate) : Prop := mk_fbstep {
  fbs_rho : summed p e U (fun u => fvalue (fb_r t u) * fvalue (b u)) (fb_rho t');
  fbs_t1 : is_number (fb_rho t) /\ fvalue (fb_rho t) <> 0 /\ rounded p e (fvalue (fb_rho t') / fvalue (fb_rho t)) (fb_t1 d);
  fbs_t2 : is_number (fb_alpha t) /\ is_number (fb_omega t) /\ fvalue (fb_omega t) <> 0 /\ rounded p e (fvalue (fb_alpha t) / fvalue (fb_omega t)) (fb_t2 d);
  fbs_beta : rounded p e (fvalue (fb_t1 d) * fvalue (fb_t2 d)) (fb_beta d);
  fbs_p1 : forall u, In u U -> rounded p e (fvalue (fb_p t u) - fvalue (fb_omega t) * fvalue (fb_v t u)) (fb_p1 d u);
  fbs_p : forall u, In u U -> rounded p e (fvalue (fb_r t u) + fvalue (fb_beta d) * fvalue (fb_p1 d u)) (fb_p t' u);
  fbs_v : multiplied (fb_p t') (fb_v t');
  fbs_alpha : quotient (fb_rho t') (fb_sigma d) (fb_alpha t') (fun u => fvalue (b u) * fvalue (fb_v t' u));
  fbs_s : forall u, In u U -> rounded p e (fvalue (fb_r t u) - fvalue (fb_alpha t') * fvalue (fb_v t' u)) (fb_s d u);
  fbs_t : multiplied (fb_s d) (fb_t d);
  fbs_tau : summed p e U (fun u => fvalue (fb_s d u) * fvalue (fb_t d u)) (fb_tau d);
  fbs_omega : quotient (fb_tau d) (fb_nu d) (fb_omega t') (fun u => fvalue (fb_t d u) * fvalue (fb_t d u));
  fbs_x1 : forall u, In u U -> rounded p e (fvalue (fb_x t u) + fvalue (fb_alpha t') * fvalue (fb_p t' u)) (fb_x1 d u);
  fbs_x : forall u, In u U -> rounded p e (fvalue (fb_x1 d u) + fvalue (fb_omega t') * fvalue (fb_s d u)) (fb_x t' u);
  fbs_r : forall u, In u U -> rounded p e (fvalue (fb_s d u) - fvalue (fb_omega t') * fvalue (fb_t d u)) (fb_r t' u) }.
(** the iteration starts with residual b, whatever the initial solution, and p = v = 0, rho = omega = 1, alpha = 0 *)
Record fbstart (x0 : P -> spec_float) (t : fbiterate) : Prop := mk_fbstart {
  fbt_x : forall u, In u U -> fb_x t u = x0 u;
  fbt_r : forall u, In u U -> fb_r t u = b u;
  fbt_p : forall u, In u U -> is_number (fb_p t u) /\ fvalue (fb_p t u) = 0;
  fbt_v : forall u, In u U -> is_number (fb_v t u) /\ fvalue (fb_v t u) = 0;
  fbt_rho : is_number (fb_rho t) /\ fvalue (fb_rho t) = 1;
  fbt_alpha : is_number (fb_alpha t) /\ fvalue (fb_alpha t) = 0;
  fbt_omega : is_number (fb_omega t) /\ fvalue (fb_omega t) = 1 }.
Definition float_bicg (x0 : P -> spec_float) (k : nat) (t : nat -> fbiterate) (d : nat -> fbdata) : Prop :=
  fbstart x0 (t 0%nat) /\ (forall j, (j < k)%nat -> fbstep (t j) (d j) (t (S j))).

(** *** The residual gap: how far the recursively updated residual is from b - A x *)
Definition bgap (t : fbiterate) (u : P) : R := fvalue (b u) - app_op U a (v (fb_x t)) u - fvalue (fb_r t u).
(** one rounding of [t] *)
Definition once (t : R) : R := unit_roundoff p * Rabs t + tiny p e.
(** the rounding errors one step adds to the gap: those of the two updates of the solution, of the two products, and of the
    two updates of the residual *)
Definition bdrift (t : fbiterate) (d : fbdata) (t' : fbiterate) (u : P) : R :=
  Rsum (fun w => Rabs (a u w) * (once (fvalue (fb_x t w) + fvalue (fb_alpha t') * fvalue (fb_p t' w)) + once (fvalue (fb_x1 d w) + fvalue (fb_omega t') * fvalue (fb_s d w)))) U
  + Rabs (fvalue (fb_alpha t')) * product_error (fb_p t') u
  + Rabs (fvalue (fb_omega t')) * product_error (fb_s d) u
  + once (fvalue (fb_r t u) - fvalue (fb_alpha t') * fvalue (fb_v t' u))
  + once (fvalue (fb_s d u) - fvalue (fb_omega t') * fvalue (fb_t d u)).
End FloatBiCG.
