(** CGSpec: the textbook conjugate gradient iteration over the reals (specification, independent of the code). *)
From Coq Require Import Reals.
From Verif Require Import Base ExactSum LinAlg.
Set Implicit Arguments.
Local Open Scope R_scope.

Section CG.
Variable P : Type.
Variable U : list P.
Variable a : P -> P -> R.
Variables x0 b : P -> R.
Record iterate := mk_iterate { it_x : P -> R; it_r : P -> R; it_p : P -> R }.
(** one step: alpha = <r,r>/<p,Ap>; x += alpha p; r' = r - alpha Ap; beta = <r',r'>/<r,r>; p = r' + beta p *)
Definition cg_next (t : iterate) : iterate :=
  let alpha := ip U (it_r t) (it_r t) / ip U (it_p t) (app_op U a (it_p t)) in
  let x' := fun u => it_x t u + alpha * it_p t u in
  let r' := fun u => it_r t u - alpha * app_op U a (it_p t) u in
  let beta := ip U r' r' / ip U (it_r t) (it_r t) in
  mk_iterate x' r' (fun u => r' u + beta * it_p t u).
(** the iteration started from [x0] with first residual and direction [b] *)
Fixpoint cg_iter (k : nat) : iterate :=
  match k with O => mk_iterate x0 b b | S k' => cg_next (cg_iter k') end.
(** step [j] can be computed: neither denominator vanishes *)
Definition cg_defined (j : nat) : Prop :=
  ip U (it_p (cg_iter j)) (app_op U a (it_p (cg_iter j))) <> 0 /\ ip U (it_r (cg_iter j)) (it_r (cg_iter j)) <> 0.
End CG.
