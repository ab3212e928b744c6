(** VectorSpec: what a straight-line program over scalars, vectors and matrices means, on plain values: scalar variables hold entries, vector variables
    hold an entry for every point.  Independent of futures, launches, partitions and schedules. *)
From Verif Require Import Base Index Arith Launch Vector Matrix ScalarProg VectorProg.
From Verif Require Import PropsVector PropsMatrix.
Set Implicit Arguments.

Record values (T : Type) := mk_values { scalars : nat -> T; entries : nat -> point -> T }.
Section Spec.
Variable T : Type.
Variable A : arith T.
Variable lg : legion.
Variable space : nat -> nat.     (* the index space of each vector variable *)
(** replace vector [v] by [g] *)
Definition put (ve : nat -> point -> T) (v : nat) (g : point -> T) : nat -> point -> T := fun u p => if u =? v then g p else ve u p.
(** a partial scalar product: the points of a group in some order, added left to right starting from zero *)
Definition group_dot (x y : point -> T) (group : list point) : T := fold_left (fun acc p => aadd A acc (amul A (x p) (y p))) group (a0 A).
(** One statement.  A scalar product may group and order the points in any way and add the group results in any order; everything else is determined. *)
Inductive direct_stmt (sc : nat -> T) (ve : nat -> point -> T) : vstmt T -> values T -> Prop :=
| d_set x e : direct_stmt sc ve (SSet x e) (mk_values (set sc x (direct_exp A sc e)) ve)
| d_dot x v w groups r : Permutation (concat groups) (is_points lg (space v)) -> reduces_to A (map (group_dot (ve v) (ve w)) groups) r ->
    direct_stmt sc ve (SDot x v w) (mk_values (set sc x r) ve)
| d_fill v c : direct_stmt sc ve (VFill v c) (mk_values sc (put ve v (fun _ => c)))
| d_fill_scalar v e : direct_stmt sc ve (VFillScalar v e) (mk_values sc (put ve v (fun _ => direct_exp A sc e)))
| d_copy v w : direct_stmt sc ve (VCopy v w) (mk_values sc (put ve v (ve w)))
| d_scal v e : direct_stmt sc ve (VScal v e) (mk_values sc (put ve v (fun p => amul A (direct_exp A sc e) (ve v p))))
| d_axpy v es w alpha : coefficient A (map (direct_exp A sc) es) alpha ->
    direct_stmt sc ve (VAxpy v es w) (mk_values sc (put ve v (fun p => afma A alpha (ve w p) (ve v p))))
| d_xpay v es w alpha : coefficient A (map (direct_exp A sc) es) alpha ->
    direct_stmt sc ve (VXpay v es w) (mk_values sc (put ve v (fun p => afma A alpha (ve v p) (ve w p))))
| d_matvec v m w : direct_stmt sc ve (VMatvec v m w)
    (mk_values sc (put ve v (fun p => add_products A m (ve w) (ve v p) (row_entries lg m (space w) p)))).
Inductive direct_vprog : values T -> list (vstmt T) -> values T -> Prop :=
| d_done s : direct_vprog s [] s
| d_step s c s1 p s2 : direct_stmt (scalars s) (entries s) c s1 -> direct_vprog s1 p s2 -> direct_vprog s (c :: p) s2.
End Spec.

(** the calls the interface accepts: vectors number less than [nv]; two-vector operations need the same layout (and different vectors, when one is
    written); axpy takes one to three coefficients, xpay one or two; a matrix must have at most one row per stored entry and, when CSR, rows on the destination's space *)
Definition well_formed {T} (lg : legion) (V : nat -> pvec) (nv : nat) (c : vstmt T) : Prop :=
  match c with
  | SSet _ _ => True
  | SDot _ v w => v < nv /\ w < nv /\ compatible_layout (V v) (V w)
  | VFill v _ | VFillScalar v _ | VScal v _ => v < nv
  | VCopy v w => v < nv /\ w < nv /\ v <> w /\ compatible_layout (V v) (V w)
  | VAxpy v es w => v < nv /\ w < nv /\ v <> w /\ compatible_layout (V v) (V w) /\ 1 <= length es <= 3
  | VXpay v es w => v < nv /\ w < nv /\ v <> w /\ compatible_layout (V v) (V w) /\ 1 <= length es <= 2
  | VMatvec v m w => v < nv /\ w < nv /\ v <> w /\ MatrixSpec.matrix_ok lg m /\ fits m (V v)
  end.
