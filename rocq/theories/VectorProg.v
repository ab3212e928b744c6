(** VectorProg: straight-line C++ programs over Scalar<T>, PartitionedVector<T> and matrix variables (the statements one can write with
    /repo/src/Scalar.hpp:48-66, /repo/src/PartitionedVector.hpp:79-131 and AbstractMatrix.hpp: matvec), the launches they issue, and their direct
    meaning on plain arrays. *)
From Verif Require Import Base Index Outcome Sched Async Arith Launch Vector Matrix Builder Planner.
From Verif Require Import ScalarProg.
Set Implicit Arguments.

Inductive vstmt (T : Type) :=
| SSet (x : nat) (e : sexp T)                          (* x = e; *)
| SDot (x v w : nat)                                   (* x = v.dot(w); *)
| VFill (v : nat) (c : T)                              (* v.constant_fill(c); v = c; (zero_fill: c = 0) *)
| VFillScalar (v : nat) (e : sexp T)                   (* v = e; *)
| VCopy (v w : nat)                                    (* v = w; *)
| VScal (v : nat) (e : sexp T)                         (* v.scal(e); *)
| VAxpy (v : nat) (es : list (sexp T)) (w : nat)       (* v.axpy(e1, [e2, [e3,]] w); *)
| VXpay (v : nat) (es : list (sexp T)) (w : nat)       (* v.xpay(e1, [e2,] w); *)
| VMatvec (v : nat) (m : matrix T) (w : nat).          (* derive the partitions from v's; m.matvec(v, w, kernel, ghost) *)
Arguments SDot {T}.
Arguments VCopy {T}.

Section Issue.
Variable T : Type.
Variable A : arith T.
Variable lg : legion.
Variable red : nat -> list T -> T.
Variable V : nat -> pvec.        (* the vector variables *)
(** PartitionedVector(ctx, rt, name, partition): a fresh region with one field, /repo/src/PartitionedVector.cpp:26-61 *)
Definition new_vector (q : nat) : M T pvec := let* r := fresh_region in lift (make_vector lg q r 0).
Fixpoint new_vectors (qs : list nat) : M T (list pvec) :=
  match qs with [] => ret [] | q :: rest => let* v := new_vector q in let* vs := new_vectors rest in ret (v :: vs) end.

(** the scalar arguments of a call, evaluated first (their order does not matter: C++ leaves it open) *)
Fixpoint issue_exps (env : nat -> scalar) (es : list (sexp T)) : M T (list scalar) :=
  match es with [] => ret [] | e :: rest => let* f := issue_exp A env e in let* fs := issue_exps env rest in ret (f :: fs) end.
Definition issue_vstmt (env : nat -> scalar) (c : vstmt T) : M T (nat -> scalar) :=
  match c with
  | SSet x e => let* f := issue_exp A env e in ret (set env x f)
  | SDot x v w => let* f := vector_dot A lg red (V v) (V w) in ret (set env x f)
  | VFill v k => issue (constant_fill lg (V v) k) ;; ret env
  | VFillScalar v e => let* f := issue_exp A env e in issue (constant_fill_future A lg (V v) f) ;; ret env
  | VCopy v w => issue (copy A lg (V v) (V w)) ;; ret env
  | VScal v e => let* f := issue_exp A env e in issue (scal A lg (V v) [f]) ;; ret env
  | VAxpy v es w => let* fs := issue_exps env es in issue (axpy A lg (V v) fs (V w)) ;; ret env
  | VXpay v es w => let* fs := issue_exps env es in issue (xpay A lg (V v) fs (V w)) ;; ret env
  | VMatvec v m w =>
      let* kps := lift (kernel_from_range lg m (pv_part (V v))) in
      issue (matvec A lg m (V v) (V w) kps (domain_from_kernel lg m (pv_space (V w)) kps)) ;; ret env
  end.
Fixpoint issue_vprog (env : nat -> scalar) (p : list (vstmt T)) : M T (nat -> scalar) :=
  match p with [] => ret env | c :: rest => let* env' := issue_vstmt env c in issue_vprog env' rest end.
End Issue.
