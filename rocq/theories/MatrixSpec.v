(** MatrixSpec: what the stored data of a matrix mean: a list of (row, column, value) triples in storage order,
    and the matrix-vector product they stand for. *)
From Verif Require Import Base Index Launch Arith Vector Matrix.
Set Implicit Arguments.

Section Spec.
Variable T : Type.
(** COO: entry kp is at (row[kp], col[kp]).  CSR: entry kp is in the row(s) whose interval contains kp. *)
Definition triples (lg : legion) (m : matrix T) : list (point * point * T) :=
  match m with
  | COO c => map (fun kp => (co_row c kp, co_col c kp, co_entry c kp)) (co_kpts c)
  | CSR c => flat_map (fun kp => map (fun r => (r, cs_col c kp, cs_entry c kp))
                (filter (fun r => contains (cs_rowptr c r) kp) (is_points lg (cs_rows c)))) (cs_kpts c)
  end.
(** CSR row intervals are disjoint / cover the stored entries. *)
Definition rows_disjoint (lg : legion) (c : csr T) : Prop :=
  forall kp r1 r2, In kp (cs_kpts c) -> In r1 (is_points lg (cs_rows c)) -> In r2 (is_points lg (cs_rows c)) ->
    contains (cs_rowptr c r1) kp = true -> contains (cs_rowptr c r2) kp = true -> r1 = r2.
Definition rows_cover (lg : legion) (c : csr T) : Prop :=
  forall kp, In kp (cs_kpts c) -> exists r, In r (is_points lg (cs_rows c)) /\ contains (cs_rowptr c r) kp = true.
Definition matrix_ok (lg : legion) (m : matrix T) : Prop :=
  match m with COO _ => True | CSR c => rows_disjoint lg c end.
(** the triples of row [p] whose column exists in the source space, in storage order *)
Definition row_triples (lg : legion) (m : matrix T) (cols : list point) (p : point) : list (point * point * T) :=
  filter (fun t => let '(r, c, _) := t in (if point_eq_dec r p then true else false) && mem c cols) (triples lg m).
(** start + sum over the triples of e * x(col), added left to right in the entry type *)
Definition accumulate_row (A : arith T) (x : point -> T) (start : T) (ts : list (point * point * T)) : T :=
  fold_left (fun acc t => let '(_, c, e) := t in aadd A acc (amul A e (x c))) ts start.
End Spec.
