(** IndexSpec: the vocabulary in which the index properties are stated.  Independent of the code's helpers. *)
From Verif Require Import Base Index.
Local Open Scope Z_scope.

(** Membership in a box, coordinate by coordinate. *)
Definition in_box (b : rect) (p : point) : Prop :=
  length p = length (lo b) /\ length (lo b) = length (hi b) /\
  forall i, (i < length p)%nat -> nth i (lo b) 0 <= nth i p 0 <= nth i (hi b) 0.

(** A box in dimension [d] all of whose sides are non-empty. *)
Definition nonempty_box (b : rect) : Prop :=
  length (lo b) = length (hi b) /\
  forall i, (i < length (lo b))%nat -> nth i (lo b) 0 <= nth i (hi b) 0.

Definition wf_box (b : rect) : Prop := length (lo b) = length (hi b).

(** p precedes q lexicographically: they agree before some coordinate i, where p is smaller. *)
Definition lex_lt (p q : point) : Prop :=
  exists i, (i < length p)%nat /\ (i < length q)%nat /\
    nth i p 0 < nth i q 0 /\ forall j, (j < i)%nat -> nth j p 0 = nth j q 0.

(** the same comparing from the last coordinate *)
Definition colex_lt (p q : point) : Prop :=
  exists i, (i < length p)%nat /\ (i < length q)%nat /\
    nth i p 0 < nth i q 0 /\ forall j, (i < j < length p)%nat -> nth j p 0 = nth j q 0.

Definition order_lt (o : IndexOrder) : point -> point -> Prop :=
  match o with ROW_MAJOR => lex_lt | COLUMN_MAJOR => colex_lt end.

(** All points of a box in row-major order. *)
Fixpoint box_points_aux (l h : point) : list point :=
  match l, h with
  | l0 :: l', h0 :: h' => flat_map (fun x => map (cons x) (box_points_aux l' h')) (zrange l0 h0)
  | _, _ => [[]]
  end.
Definition box_points_rm (b : rect) : list point := box_points_aux (lo b) (hi b).
Definition box_points_cm (b : rect) : list point :=
  map (@rev Z) (box_points_aux (rev (lo b)) (rev (hi b))).
Definition box_points (o : IndexOrder) : rect -> list point :=
  match o with ROW_MAJOR => box_points_rm | COLUMN_MAJOR => box_points_cm end.
