(** BiCGSpec: the textbook BiCGStab iteration (van der Vorst 1992) over the reals (specification, independent of the
    code). *)
From Coq Require Import Reals.
From Verif Require Import Base ExactSum LinAlg.
Set Implicit Arguments.
Local Open Scope R_scope.

Section BiCG.
Variable P : Type.
Variable U : list P.
Variable a : P -> P -> R.
Variables x0 b : P -> R.      (* initial guess; first residual, also used as the shadow residual *)
Record biter := mk_biter { b_x : P -> R; b_r : P -> R; b_p : P -> R; b_v : P -> R; b_rho : R; b_alpha : R; b_omega : R }.
Definition b_rho' (t : biter) : R := ip U b (b_r t).
Definition b_beta (t : biter) : R := b_rho' t / b_rho t * (b_alpha t / b_omega t).
Definition b_p' (t : biter) : P -> R := fun u => b_r t u + b_beta t * (b_p t u - b_omega t * b_v t u).
Definition b_v' (t : biter) : P -> R := app_op U a (b_p' t).
Definition b_alpha' (t : biter) : R := b_rho' t / ip U b (b_v' t).
Definition b_s (t : biter) : P -> R := fun u => b_r t u - b_alpha' t * b_v' t u.
Definition b_t (t : biter) : P -> R := app_op U a (b_s t).
Definition b_omega' (t : biter) : R := ip U (b_t t) (b_s t) / ip U (b_t t) (b_t t).
Definition bicg_next (t : biter) : biter :=
  mk_biter (fun u => b_x t u + b_alpha' t * b_p' t u + b_omega' t * b_s t u)
           (fun u => b_s t u - b_omega' t * b_t t u)
           (b_p' t) (b_v' t) (b_rho' t) (b_alpha' t) (b_omega' t).
Fixpoint bicg_iter (k : nat) : biter :=
  match k with O => mk_biter x0 b (fun _ => 0) (fun _ => 0) 1 0 1 | S k' => bicg_next (bicg_iter k') end.
(** the first half of step [j], and the whole step, divide by no zero *)
Definition half_defined (t : biter) : Prop := b_rho t <> 0 /\ b_omega t <> 0 /\ ip U b (b_v' t) <> 0.
Definition bicg_defined (j : nat) : Prop :=
  half_defined (bicg_iter j) /\ ip U (b_t (bicg_iter j)) (b_t (bicg_iter j)) <> 0.

Lemma bicg_residual_identity k : forall u, b_r (bicg_iter k) u = b u - app_op U a (vsub (b_x (bicg_iter k)) x0) u.
Proof.
  induction k as [|k IH]; intros u.
  - cbn [bicg_iter b_r b_x]. unfold vsub. assert (E : app_op U a (fun u => x0 u - x0 u) u = 0).
    { unfold app_op. rewrite (Rsum_ext _ (fun v => 0)); [apply Rsum_zero|]. intros v _. ring. }
    rewrite E. ring.
  - cbn [bicg_iter bicg_next b_r b_x]. set (t := bicg_iter k) in *.
    replace (app_op U a (vsub (fun u0 => b_x t u0 + b_alpha' t * b_p' t u0 + b_omega' t * b_s t u0) x0) u)
      with (app_op U a (vadd (vsub (b_x t) x0) (vadd (vscal (b_alpha' t) (b_p' t)) (vscal (b_omega' t) (b_s t)))) u).
    2: { apply app_ext. intros v _. unfold vadd, vsub, vscal. ring. }
    rewrite !app_add, !app_scal. fold (b_v' t). fold (b_t t). unfold b_s at 1. rewrite IH. unfold b_v'. ring.
Qed.
End BiCG.
