(** StencilSpec: what a stencil matrix is, independently of how the code builds it. *)
From Verif Require Import Base Index IndexSpec.
Local Open Scope Z_scope.

(** All (grid point, (offset, value)) pairs whose shifted point lies in the box. *)
Definition in_bounds_pairs {E} (b : rect) (offsets : list (point * E)) : list (point * (point * E)) :=
  filter (fun pe => contains b (padd (fst pe) (fst (snd pe)))) (list_prod (box_points_rm b) offsets).

(** every offset has the dimension of the box *)
Definition offsets_dim {E} (b : rect) (offsets : list (point * E)) : Prop :=
  Forall (fun oe => length (fst oe) = length (lo b)) offsets.

(** the stored triples: (row, column, value) *)
Definition triple_of {E} (pe : point * (point * E)) : point * point * E :=
  (fst pe, padd (fst pe) (fst (snd pe)), snd (snd pe)).

(** The contents of the stencil matrix in storage order: for every grid point p in traversal order and every
    offset (in the order of [sorted]) whose shifted point is inside, the triple (row, column, value). *)
Definition stencil_row {E} (b : rect) (sorted : list (point * E)) (p : point) : list (point * point * E) :=
  map (fun oe => (p, padd p (fst oe), snd oe)) (filter (fun oe => contains b (padd p (fst oe))) sorted).
Definition stencil_contents {E} (o : IndexOrder) (b : rect) (sorted : list (point * E)) : list (point * point * E) :=
  flat_map (stencil_row b sorted) (box_points o b).

(** storage order: by row, then by column, then by value *)
Definition triple_before {E} (ltE : E -> E -> bool) (o : IndexOrder) (t u : point * point * E) : Prop :=
  let '(r1, c1, e1) := t in let '(r2, c2, e2) := u in
  order_lt o r1 r2 \/ (r1 = r2 /\ (order_lt o c1 c2 \/ (c1 = c2 /\ ltE e2 e1 = false))).

(** first and last storage position of the i-th row in traversal order *)
Definition row_first {E} (o : IndexOrder) (b : rect) (sorted : list (point * E)) (i : nat) : Z :=
  Z.of_nat (length (flat_map (stencil_row b sorted) (firstn i (box_points o b)))).
Definition row_last {E} (o : IndexOrder) (b : rect) (sorted : list (point * E)) (i : nat) : Z :=
  row_first o b sorted (S i) - 1.
