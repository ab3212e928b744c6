(** Index: points, boxes, and the index helpers of src/StencilGenerator.hpp.
    A [Legion::Point<DIM,COORD_T>] is a list of DIM integers; coordinates are unbounded [Z]
    (SIMPLIFICATION: COORD_T wrap-around is not modelled here; see DESIGN.md).
    A [Legion::Rect] is the pair of its [lo] and [hi] corners. *)
From Verif Require Import Base.
Local Open Scope Z_scope.

Notation point := (list Z).

(** Legion::Rect<DIM, COORD_T> (used throughout /repo/src/StencilGenerator.hpp, e.g. lines 46, 272). *)
Record rect := mk_rect { lo : point; hi : point }.

(** Legion::Rect::contains(Point): every coordinate within its closed interval
    (Legion run-time contract; used at /repo/src/StencilGenerator.cpp:99, 211, 340, 497). *)
Fixpoint contains_aux (l h p : point) : bool :=
  match l, h, p with
  | [], [], [] => true
  | l0 :: l', h0 :: h', p0 :: p' => (l0 <=? p0) && (p0 <=? h0) && contains_aux l' h' p'
  | _, _, _ => false
  end.
Definition contains (b : rect) (p : point) : bool := contains_aux (lo b) (hi b) p.

(** Legion::Rect::volume() (Legion contract: 0 when some dimension is empty, else the product of extents;
    used at /repo/src/StencilGenerator.hpp:281, 551). *)
Fixpoint volume_aux (l h : point) : Z :=
  match l, h with
  | l0 :: l', h0 :: h' => if h0 <? l0 then 0 else (h0 - l0 + 1) * volume_aux l' h'
  | _, _ => 1
  end.
Definition volume (b : rect) : Z := volume_aux (lo b) (hi b).

(** Legion::Point operator+ (component-wise; used at /repo/src/StencilGenerator.cpp:98). *)
Fixpoint padd (p q : point) : point :=
  match p, q with
  | x :: p', y :: q' => (x + y) :: padd p' q'
  | _, _ => []
  end.

(** increment_head: /repo/src/StencilGenerator.hpp:139-145. *)
Definition increment_head (p : point) : point :=
  match p with [] => [] | x :: p' => (x + 1) :: p' end.

(** tail_equal: /repo/src/StencilGenerator.hpp:148-156 (all coordinates from index 1 on agree). *)
Fixpoint all_equal (p q : point) : bool :=
  match p, q with
  | x :: p', y :: q' => if negb (x =? y) then false else all_equal p' q'
  | _, _ => true
  end.
Definition tail_equal (p q : point) : bool := all_equal (tl p) (tl q).

(** leading_dimension_bounds: /repo/src/StencilGenerator.hpp:159-171.
    [hd 0 p] stands for [point[0]]; DIM >= 1 in the code, so the default is never used there. *)
Definition leading_step {E} (acc : Z * Z) (oe : point * E) : Z * Z :=
  let '(lower, upper) := acc in
  let leading := hd 0 (fst oe) in
  let lower' := if leading <? lower then leading else lower in
  let upper' := if leading >? upper then leading else upper in
  (lower', upper').
Definition leading_dimension_bounds {E} (offsets : list (point * E)) : Z * Z :=
  fold_left leading_step offsets (0, 0).

(** compare_row_major: /repo/src/StencilGenerator.hpp:174-183 (loop over i = 0 .. DIM-1). *)
Fixpoint compare_row_major (p q : point) : bool :=
  match p, q with
  | x :: p', y :: q' => if x <? y then true else if x >? y then false else compare_row_major p' q'
  | _, _ => false
  end.

(** compare_column_major: /repo/src/StencilGenerator.hpp:186-195 (the same loop over i = DIM-1 .. 0). *)
Definition compare_column_major (p q : point) : bool := compare_row_major (rev p) (rev q).

(** increment_row_major: /repo/src/StencilGenerator.hpp:198-211.  The loop runs from the last coordinate
    towards the first and stops at the first one that can be incremented; written as recursion, the tail
    (higher indices) is treated first.  Returns the new point and the returned boolean. *)
Fixpoint increment_row_major_aux (p l h : point) : point * bool :=
  match p, l, h with
  | x :: p', l0 :: l', h0 :: h' =>
      let '(q, more) := increment_row_major_aux p' l' h' in
      if more then (x :: q, true)
      else if x >=? h0 then (l0 :: q, false) else ((x + 1) :: q, true)
  | _, _, _ => (p, false)
  end.
Definition increment_row_major (b : rect) (p : point) : point * bool :=
  increment_row_major_aux p (lo b) (hi b).

(** increment_column_major: /repo/src/StencilGenerator.hpp:214-227 (loop from coordinate 0 upwards). *)
Fixpoint increment_column_major_aux (p l h : point) : point * bool :=
  match p, l, h with
  | x :: p', l0 :: l', h0 :: h' =>
      if x >=? h0 then
        let '(q, more) := increment_column_major_aux p' l' h' in (l0 :: q, more)
      else ((x + 1) :: p', true)
  | _, _, _ => (p, false)
  end.
Definition increment_column_major (b : rect) (p : point) : point * bool :=
  increment_column_major_aux p (lo b) (hi b).

(** linearize_row_major: /repo/src/StencilGenerator.hpp:230-243; the pair is ([result], [acc]) after the
    iterations for the higher coordinates. *)
Fixpoint linearize_row_major_aux (p l h : point) : Z * Z :=
  match p, l, h with
  | x :: p', l0 :: l', h0 :: h' =>
      let '(result, acc) := linearize_row_major_aux p' l' h' in
      (result + acc * (x - l0), acc * (h0 - l0 + 1))
  | _, _, _ => (0, 1)
  end.
Definition linearize_row_major (b : rect) (p : point) : Z :=
  fst (linearize_row_major_aux p (lo b) (hi b)).

(** linearize_column_major: /repo/src/StencilGenerator.hpp:246-259 (loop from coordinate 0 upwards, carrying
    [result] and [acc]). *)
Fixpoint linearize_column_major_aux (result acc : Z) (p l h : point) : Z :=
  match p, l, h with
  | x :: p', l0 :: l', h0 :: h' =>
      linearize_column_major_aux (result + acc * (x - l0)) (acc * (h0 - l0 + 1)) p' l' h'
  | _, _, _ => result
  end.
Definition linearize_column_major (b : rect) (p : point) : Z :=
  linearize_column_major_aux 0 1 p (lo b) (hi b).

(** enum class IndexOrder: /repo/src/StencilGenerator.hpp:23-26, with the two switch branches of the fill
    tasks selecting the increment, linearisation and comparison (StencilGenerator.cpp:40-65, 94-125). *)
Inductive IndexOrder := ROW_MAJOR | COLUMN_MAJOR.
Definition increment (o : IndexOrder) : rect -> point -> point * bool :=
  match o with ROW_MAJOR => increment_row_major | COLUMN_MAJOR => increment_column_major end.
Definition linearize (o : IndexOrder) : rect -> point -> Z :=
  match o with ROW_MAJOR => linearize_row_major | COLUMN_MAJOR => linearize_column_major end.
Definition compare (o : IndexOrder) : point -> point -> bool :=
  match o with ROW_MAJOR => compare_row_major | COLUMN_MAJOR => compare_column_major end.

(** The do { body(point) } while (increment(point, bounds)) loop shared by the fill tasks
    (/repo/src/StencilGenerator.cpp:96-108, 111-123), reduced to the list of points the body sees and the
    value of [point] after the loop.  [None] = fuel exhausted (excluded by the theorems). *)
Fixpoint traverse (fuel : nat) (inc : point -> point * bool) (p : point) : option (list point * point) :=
  match fuel with
  | O => None
  | S f =>
      let '(q, more) := inc p in
      if more then
        match traverse f inc q with
        | Some (visited, last) => Some (p :: visited, last)
        | None => None
        end
      else Some ([p], q)
  end.
