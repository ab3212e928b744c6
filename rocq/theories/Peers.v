(** Peers: the comparison benchmarks /repo/benchmarks/petsc/main.cpp and /repo/benchmarks/trilinos/main.cpp, from the
    command-line values to the calls that insert matrix entries.  The PETSc and Trilinos libraries themselves, the
    solver runs and the timing are not modelled. *)
From Verif Require Import Base Index Outcome.
Set Implicit Arguments.
Local Open Scope Z_scope.

(** C++ integers as the two programs use them: a signed type with largest value [smax] and the 64-bit unsigned type
    (Tpetra::global_size_t).  An operation on two signed values is undefined when it overflows; if one operand is
    unsigned the other is converted and the result wraps. *)
Inductive cint := Sgn (z : Z) | Uns (z : Z).
Definition unsigned64 (z : Z) : Z := z mod 2 ^ 64.
Definition raw (a : cint) : Z := match a with Sgn z => z | Uns z => z end.
Section Arithmetic.
Variable smax : Z.
Definition fits_signed (z : Z) : bool := (- smax - 1 <=? z) && (z <=? smax).
Definition checked (z : Z) : outcome cint := if fits_signed z then Ok (Sgn z) else UB.
Definition binary (f : Z -> Z -> Z) (a b : outcome cint) : outcome cint :=
  do x <- a; do y <- b;
  match x, y with
  | Sgn u, Sgn v => checked (f u v)
  | _, _ => Ok (Uns (unsigned64 (f (unsigned64 (raw x)) (unsigned64 (raw y)))))
  end.
Definition add := binary Z.add.
Definition sub := binary Z.sub.
Definition mul := binary Z.mul.
(** / and %: truncated for signed operands; a zero divisor is undefined *)
Definition divide (f g : Z -> Z -> Z) (a b : outcome cint) : outcome cint :=
  do x <- a; do y <- b;
  match x, y with
  | Sgn u, Sgn v => if v =? 0 then UB else checked (f u v)
  | _, _ => if unsigned64 (raw y) =? 0 then UB else Ok (Uns (g (unsigned64 (raw x)) (unsigned64 (raw y))))
  end.
Definition div := divide Z.quot Z.div.
Definition rem := divide Z.rem Z.modulo.
Definition less (a b : outcome cint) : outcome bool :=
  do x <- a; do y <- b;
  match x, y with
  | Sgn u, Sgn v => Ok (u <? v)
  | _, _ => Ok (unsigned64 (raw x) <? unsigned64 (raw y))
  end.
(** && evaluates its right operand only if the left one holds *)
Definition both (a b : outcome bool) : outcome bool := do x <- a; if x then b else Ok false.
(** conversion to the signed type (of 64 bits when the operand is unsigned) *)
Definition signed_of (a : cint) : Z := match a with Sgn z => z | Uns z => if z <=? smax then z else z - 2 ^ 64 end.
Definition to_signed (a : outcome cint) : outcome cint := do x <- a; Ok (Sgn (signed_of x)).
End Arithmetic.

(** enum class MatrixType: petsc/main.cpp:13-18, trilinos/main.cpp:20-25; numbered as -dim of BenchmarkStencil.cpp *)
Inductive laplacian := LAPLACIAN_1D_3POINT | LAPLACIAN_2D_5POINT | LAPLACIAN_3D_7POINT | LAPLACIAN_3D_27POINT.
Definition dim_code (t : laplacian) : nat :=
  match t with LAPLACIAN_1D_3POINT => 1 | LAPLACIAN_2D_5POINT => 2 | LAPLACIAN_3D_7POINT => 3 | LAPLACIAN_3D_27POINT => 4 end.

Section Rows.
Variable T : Type.
(** [lit n d]: the constant expression n.0 / d.0 of type double (n.0 itself if d is 1) *)
Variable lit : Z -> Z -> T.
(** petsc/main.cpp:40-47, trilinos/main.cpp:73-80 *)
Definition two := lit 2 1. Definition four := lit 4 1. Definition six := lit 6 1. Definition neg_one := lit (-1) 1.
Definition center := lit 88 26. Definition face := lit (-6) 26. Definition edge := lit (-3) 26. Definition corner := lit (-2) 26.

Variable smax : Z.
Notation "a +! b" := (add smax a b) (at level 50, left associativity).
Notation "a -! b" := (sub smax a b) (at level 50, left associativity).
Notation "a *! b" := (mul smax a b) (at level 40, left associativity).
Notation "a /! b" := (div smax a b) (at level 40, left associativity).
Notation "a %! b" := (rem smax a b) (at level 40, left associativity).
Notation "a <! b" := (less a b) (at level 70).
Notation "a &&! b" := (both a b) (at level 73, left associativity).
Let zero : outcome cint := Ok (Sgn 0).
Let one : outcome cint := Ok (Sgn 1).
Let yes : outcome bool := Ok true.

(** if (c) { MatSetValue(A, row, col, v, INSERT_VALUES) }  resp.  if (c) { indices.push_back(col); values.push_back(v); } *)
Definition put (c : outcome bool) (col : outcome cint) (v : T) : outcome (list (Z * T)) :=
  do x <- c; if x then do j <- col; Ok [(signed_of smax j, v)] else Ok [].
Fixpoint in_turn (l : list (outcome (list (Z * T)))) : outcome (list (Z * T)) :=
  match l with [] => Ok [] | a :: l' => do x <- a; do y <- in_turn l'; Ok (x ++ y) end.

(** The body of the loop over the rows: (column, value) in the order of the calls.  petsc/main.cpp:116-250 and
    trilinos/main.cpp:171-367 have the same text up to the calls; they differ in the types: [nx], [ny], [nz] are
    PetscInt (signed) resp. global_size_t (unsigned), the row and the coordinates are of the signed type. *)
Definition row_calls (t : laplacian) (nx ny nz global_index : outcome cint) : outcome (list (Z * T)) :=
  match t with
  | LAPLACIAN_1D_3POINT =>
    let gx := global_index in
    in_turn
    [put (zero <! gx) (gx -! one) neg_one;
     put yes (gx) two;
     put (gx +! one <! nx) (gx +! one) neg_one]
  | LAPLACIAN_2D_5POINT =>
    do y <- to_signed smax (global_index %! ny); let gy := Ok y in
    do x <- to_signed smax (global_index /! ny); let gx := Ok x in
    in_turn
    [put (zero <! gx) (ny *! (gx -! one) +! gy) neg_one;
     put (zero <! gy) (ny *! gx +! (gy -! one)) neg_one;
     put yes (ny *! gx +! gy) four;
     put (gy +! one <! ny) (ny *! gx +! (gy +! one)) neg_one;
     put (gx +! one <! nx) (ny *! (gx +! one) +! gy) neg_one]
  | LAPLACIAN_3D_7POINT =>
    do z <- to_signed smax (global_index %! nz); let gz := Ok z in
    do xy <- to_signed smax (global_index /! nz); let gxy := Ok xy in
    do y <- to_signed smax (gxy %! ny); let gy := Ok y in
    do x <- to_signed smax (gxy /! ny); let gx := Ok x in
    in_turn
    [put (zero <! gx) (ny *! nz *! (gx -! one) +! nz *! gy +! gz) neg_one;
     put (zero <! gy) (ny *! nz *! gx +! nz *! (gy -! one) +! gz) neg_one;
     put (zero <! gz) (ny *! nz *! gx +! nz *! gy +! (gz -! one)) neg_one;
     put yes (ny *! nz *! gx +! nz *! gy +! gz) six;
     put (gz +! one <! nz) (ny *! nz *! gx +! nz *! gy +! (gz +! one)) neg_one;
     put (gy +! one <! ny) (ny *! nz *! gx +! nz *! (gy +! one) +! gz) neg_one;
     put (gx +! one <! nx) (ny *! nz *! (gx +! one) +! nz *! gy +! gz) neg_one]
  | LAPLACIAN_3D_27POINT =>
    do z <- to_signed smax (global_index %! nz); let gz := Ok z in
    do xy <- to_signed smax (global_index /! nz); let gxy := Ok xy in
    do y <- to_signed smax (gxy %! ny); let gy := Ok y in
    do x <- to_signed smax (gxy /! ny); let gx := Ok x in
    in_turn
    [put ((zero <! gx) &&! (zero <! gy) &&! (zero <! gz)) (ny *! nz *! (gx -! one) +! nz *! (gy -! one) +! (gz -! one)) corner;
     put ((zero <! gx) &&! (zero <! gy)) (ny *! nz *! (gx -! one) +! nz *! (gy -! one) +! gz) edge;
     put ((zero <! gx) &&! (zero <! gy) &&! (gz +! one <! nz)) (ny *! nz *! (gx -! one) +! nz *! (gy -! one) +! (gz +! one)) corner;
     put ((zero <! gx) &&! (zero <! gz)) (ny *! nz *! (gx -! one) +! nz *! gy +! (gz -! one)) edge;
     put (zero <! gx) (ny *! nz *! (gx -! one) +! nz *! gy +! gz) face;
     put ((zero <! gx) &&! (gz +! one <! nz)) (ny *! nz *! (gx -! one) +! nz *! gy +! (gz +! one)) edge;
     put ((zero <! gx) &&! (gy +! one <! ny) &&! (zero <! gz)) (ny *! nz *! (gx -! one) +! nz *! (gy +! one) +! (gz -! one)) corner;
     put ((zero <! gx) &&! (gy +! one <! ny)) (ny *! nz *! (gx -! one) +! nz *! (gy +! one) +! gz) edge;
     put ((zero <! gx) &&! (gy +! one <! ny) &&! (gz +! one <! nz)) (ny *! nz *! (gx -! one) +! nz *! (gy +! one) +! (gz +! one)) corner;
     put ((zero <! gy) &&! (zero <! gz)) (ny *! nz *! gx +! nz *! (gy -! one) +! (gz -! one)) edge;
     put (zero <! gy) (ny *! nz *! gx +! nz *! (gy -! one) +! gz) face;
     put ((zero <! gy) &&! (gz +! one <! nz)) (ny *! nz *! gx +! nz *! (gy -! one) +! (gz +! one)) edge;
     put (zero <! gz) (ny *! nz *! gx +! nz *! gy +! (gz -! one)) face;
     put yes (ny *! nz *! gx +! nz *! gy +! gz) center;
     put (gz +! one <! nz) (ny *! nz *! gx +! nz *! gy +! (gz +! one)) face;
     put ((gy +! one <! ny) &&! (zero <! gz)) (ny *! nz *! gx +! nz *! (gy +! one) +! (gz -! one)) edge;
     put (gy +! one <! ny) (ny *! nz *! gx +! nz *! (gy +! one) +! gz) face;
     put ((gy +! one <! ny) &&! (gz +! one <! nz)) (ny *! nz *! gx +! nz *! (gy +! one) +! (gz +! one)) edge;
     put ((gx +! one <! nx) &&! (zero <! gy) &&! (zero <! gz)) (ny *! nz *! (gx +! one) +! nz *! (gy -! one) +! (gz -! one)) corner;
     put ((gx +! one <! nx) &&! (zero <! gy)) (ny *! nz *! (gx +! one) +! nz *! (gy -! one) +! gz) edge;
     put ((gx +! one <! nx) &&! (zero <! gy) &&! (gz +! one <! nz)) (ny *! nz *! (gx +! one) +! nz *! (gy -! one) +! (gz +! one)) corner;
     put ((gx +! one <! nx) &&! (zero <! gz)) (ny *! nz *! (gx +! one) +! nz *! gy +! (gz -! one)) edge;
     put (gx +! one <! nx) (ny *! nz *! (gx +! one) +! nz *! gy +! gz) face;
     put ((gx +! one <! nx) &&! (gz +! one <! nz)) (ny *! nz *! (gx +! one) +! nz *! gy +! (gz +! one)) edge;
     put ((gx +! one <! nx) &&! (gy +! one <! ny) &&! (zero <! gz)) (ny *! nz *! (gx +! one) +! nz *! (gy +! one) +! (gz -! one)) corner;
     put ((gx +! one <! nx) &&! (gy +! one <! ny)) (ny *! nz *! (gx +! one) +! nz *! (gy +! one) +! gz) edge;
     put ((gx +! one <! nx) &&! (gy +! one <! ny) &&! (gz +! one <! nz)) (ny *! nz *! (gx +! one) +! nz *! (gy +! one) +! (gz +! one)) corner]
  end.
End Rows.

Section Programs.
Variable T : Type.
Variable lit : Z -> Z -> T.

(** *** PETSc.  [smax] is the largest PetscInt (2^31-1 or 2^63-1, depending on how PETSc was configured). *)
(** petsc/main.cpp:88: the number of rows *)
Definition petsc_problem_size (smax nx ny nz : Z) : outcome Z :=
  do n <- mul smax (mul smax (Ok (Sgn nx)) (Ok (Sgn ny))) (Ok (Sgn nz)); Ok (raw n).
(** lo, lo+1, ..., hi-1 *)
Definition upto (lo hi : Z) : list Z := zrange lo (hi - 1).
(** a call MatSetValue(A, row, column, value, INSERT_VALUES); the value is written as ((row, column), value) *)
Definition with_row (g : Z) (l : list (Z * T)) : list (Z * Z * T) := map (fun jv => (g, fst jv, snd jv)) l.
(** petsc/main.cpp:110-251: the process that owns the rows row_start .. row_end-1 *)
Fixpoint petsc_rows (t : laplacian) (smax nx ny nz : Z) (rows : list Z) : outcome (list (Z * Z * T)) :=
  match rows with
  | [] => Ok []
  | g :: rows' =>
    do l <- row_calls lit smax t (Ok (Sgn nx)) (Ok (Sgn ny)) (Ok (Sgn nz)) (Ok (Sgn g));
    do rest <- petsc_rows t smax nx ny nz rows';
    Ok (with_row g l ++ rest)
  end.
Definition petsc_process (t : laplacian) (smax nx ny nz row_start row_end : Z) : outcome (list (Z * Z * T)) :=
  petsc_rows t smax nx ny nz (upto row_start row_end).

(** *** Trilinos.  GlobalIndex is long long, global_size_t is std::size_t, LocalIndex is int. *)
Definition max_global : Z := 2 ^ 63 - 1.
(** trilinos/main.cpp:105-120: [arg i] is std::stoull(args[i]), [None] if there is no such argument (reading past the
    end of a vector); what stoull does with other text is not modelled *)
Definition trilinos_sizes (t : laplacian) (arg : nat -> option Z) : outcome (Z * Z * Z) :=
  let get i k := match arg i with Some z => k (unsigned64 z) | None => UB end in
  match t with
  | LAPLACIAN_3D_27POINT | LAPLACIAN_3D_7POINT => get 5%nat (fun nz => get 4%nat (fun ny => get 3%nat (fun nx => Ok (nx, ny, nz))))
  | LAPLACIAN_2D_5POINT => get 4%nat (fun ny => get 3%nat (fun nx => Ok (nx, ny, 1)))
  | LAPLACIAN_1D_3POINT => get 3%nat (fun nx => Ok (nx, 1, 1))
  end.
(** trilinos/main.cpp:133: the number of rows *)
Definition trilinos_problem_size (nx ny nz : Z) : Z := unsigned64 (unsigned64 (nx * ny) * nz).
(** static_cast<int>(std::size_t) *)
Definition to_int32 (z : Z) : Z := let u := z mod 2 ^ 32 in if u <? 2 ^ 31 then u else u - 2 ^ 32.
(** trilinos/main.cpp:165-371: the vectors [indices] and [values] ([buf]) are filled, inserted and cleared per row *)
Fixpoint trilinos_rows (t : laplacian) (nx ny nz : Z) (rows : list Z) (buf : list (Z * T)) : outcome (list (Z * Z * T)) :=
  match rows with
  | [] => Ok []
  | g :: rows' =>
    do l <- row_calls lit max_global t (Ok (Uns nx)) (Ok (Uns ny)) (Ok (Uns nz)) (Ok (Sgn g));
    do rest <- trilinos_rows t nx ny nz rows' [];
    Ok (with_row g (buf ++ l) ++ rest)
  end.
(** [owned]: the rows the process owns, in the order of their local indices; the loop counter is an int *)
Definition trilinos_process (t : laplacian) (nx ny nz : Z) (owned : list Z) : outcome (list (Z * Z * T)) :=
  trilinos_rows t nx ny nz (firstn (Z.to_nat (to_int32 (Z.of_nat (length owned)))) owned) [].
End Programs.
