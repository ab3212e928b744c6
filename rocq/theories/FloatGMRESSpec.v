(** FloatGMRESSpec: a GMRES cycle as this library performs it, with rounding errors (specification, independent of the code):
    the Arnoldi process with modified Gram-Schmidt, and the sum of the basis vectors added to the solution. *)
From Coq Require Import Reals.
From Coq Require Import Floats.SpecFloat.
From Verif Require Import Base ExactSum LinAlg Float FloatSum FloatCGSpec FloatBiCGSpec.
Set Implicit Arguments.
Local Open Scope R_scope.

Section FloatGMRES.
Variables p e : Z.
Variable P : Type.
Variable U : list P.
(** the system matrix, the matrix of the magnitudes of its stored entries, and the number of stored entries of each row *)
Variable a : P -> P -> R.
Variable mag : P -> P -> R.
Variable count : P -> nat.
(** the right-hand side *)
Variable b : P -> spec_float.
Notation multiplied := (multiplied p e U a mag count).

(** [q] is [f] divided by the square root of [s], the computed sum of its squares: the square root, its reciprocal and every
    product are rounded once.  If the sum of the squares overflowed, [q] is zero. *)
Definition normalised (f : P -> spec_float) (s : spec_float) (q : P -> spec_float) : Prop :=
  (summed p e U (fun u => fvalue (f u) * fvalue (f u)) s /\ 0 < fvalue s /\
   exists y c, rounded p e (sqrt (fvalue s)) y /\ fvalue y <> 0 /\ rounded p e (1 / fvalue y) c /\
     forall u, In u U -> rounded p e (fvalue c * fvalue (f u)) (q u)) \/
  (~ is_number s /\ forall u, In u U -> is_float p e (q u) /\ is_number (q u) /\ fvalue (q u) = 0).

(** what a cycle computes: the product with the solution, the residual, its squared norm; the basis [q]; [w j k]: the product
    with [q j] after [k] components have been removed; the inner products [h k j] and norms [h (j+1) j]; the squared norms
    [d j] of [w j (j+1)]; the solution after [j] additions *)
Record fcycle := mk_fcycle { fg_ax : P -> spec_float; fg_r : P -> spec_float; fg_rr : spec_float; fg_q : nat -> P -> spec_float;
  fg_w : nat -> nat -> P -> spec_float; fg_h : nat -> nat -> spec_float; fg_d : nat -> spec_float; fg_x : nat -> P -> spec_float }.
(** column [j] of the Arnoldi process *)
Record fcolumn (t : fcycle) (j : nat) : Prop := mk_fcolumn {
  fo_product : multiplied (fg_q t j) (fg_w t j 0);
  fo_inner : forall k, (k <= j)%nat -> summed p e U (fun u => fvalue (fg_q t k u) * fvalue (fg_w t j k u)) (fg_h t k j);
  fo_remove : forall k u, (k <= j)%nat -> In u U -> rounded p e (fvalue (fg_w t j k u) - fvalue (fg_h t k j) * fvalue (fg_q t k u)) (fg_w t j (S k) u);
  fo_norm : is_number (fg_h t (S j) j) -> summed p e U (fun u => fvalue (fg_w t j (S j) u) * fvalue (fg_w t j (S j) u)) (fg_d t j) /\
    0 <= fvalue (fg_d t j) /\ rounded p e (sqrt (fvalue (fg_d t j))) (fg_h t (S j) j) }.
(** a cycle with [m] basis vectors from the solution [x] *)
Record float_cycle (m : nat) (x : P -> spec_float) (t : fcycle) : Prop := mk_float_cycle {
  fc_product : multiplied x (fg_ax t);
  fc_residual : forall u, In u U -> rounded p e (fvalue (b u) - fvalue (fg_ax t u)) (fg_r t u);
  fc_first : normalised (fg_r t) (fg_rr t) (fg_q t 0);
  (** the last column does not influence the solution: it may overflow *)
  fc_column : forall j, (j < m)%nat -> (S j < m)%nat \/ finite_vector p e U (fg_w t j (S j)) -> fcolumn t j;
  fc_next : forall j, (S j < m)%nat -> normalised (fg_w t j (S j)) (fg_d t j) (fg_q t (S j));
  fc_start : forall u, In u U -> fg_x t 0 u = x u;
  fc_add : forall j u, (j < m)%nat -> In u U -> rounded p e (fvalue (fg_x t j u) + fvalue (fg_q t j u)) (fg_x t (S j) u) }.
(** [k] cycles: the solutions [xs 0], [xs 1], ... *)
Definition float_gmres (x0 : P -> spec_float) (m k : nat) (xs : nat -> P -> spec_float) (t : nat -> fcycle) : Prop :=
  (forall u, In u U -> xs 0%nat u = x0 u) /\ forall i, (i < k)%nat -> float_cycle m (xs i) (t i) /\ forall u, In u U -> xs (S i) u = fg_x (t i) m u.

(** *** The Arnoldi relation: A q_j = sum_k h_kj q_k + w_j up to *)
Definition arnoldi_error (t : fcycle) (j : nat) (u : P) : R :=
  product_error p e U mag count (fg_q t j) u + Rsum (fun k => once p e (fvalue (fg_w t j k u) - fvalue (fg_h t k j) * fvalue (fg_q t k u))) (seq 0 (S j)).
(** w_j = h_(j+1)j q_(j+1) up to *)
Definition scaling_error (f : R) (y c : R) : R := Rabs f * (Rabs y * once p e (1 / y)) + Rabs y * once p e (c * f).
End FloatGMRES.
