(** PitchesMachine: flatten/unflatten of the GPU kernels once more, with the machine arithmetic of the C++ code
    (/repo/src/Pitches.hpp, /repo/src/CudaLibs.hpp:14-27, /repo/src/LinearAlgebraTasks.cu:118-131, 161-175): coordinates of type
    COORD_T (int, unsigned or long long), everything else of type std::size_t.  Overflow of a signed type is undefined
    behaviour; unsigned types wrap around. *)
From Verif Require Import Base Index Outcome Pitches.
Set Implicit Arguments.
Local Open Scope Z_scope.

(** The coordinate types the library is instantiated with (/repo/src/LibraryOptions.hpp: S32, U32 and S64 indices). *)
Record ctype := mk_ctype { is_signed : bool; width : Z }.
Definition c_int : ctype := mk_ctype true 32.
Definition c_unsigned : ctype := mk_ctype false 32.
Definition c_longlong : ctype := mk_ctype true 64.
Definition ct_min (c : ctype) : Z := if is_signed c then - 2 ^ (width c - 1) else 0.
Definition ct_max (c : ctype) : Z := if is_signed c then 2 ^ (width c - 1) - 1 else 2 ^ width c - 1.
Definition in_type (c : ctype) (z : Z) : bool := (ct_min c <=? z) && (z <=? ct_max c).
(** the value of a COORD_T expression whose mathematical value is [z] *)
Definition coord_expr (c : ctype) (z : Z) : outcome Z :=
  if is_signed c then (if in_type c z then Ok z else UB) else Ok (z mod 2 ^ width c).
(** the conversion of a std::size_t to COORD_T (modulo 2^width, as every compiler does and C++20 requires) *)
Definition to_coord (c : ctype) (z : Z) : Z :=
  let m := z mod 2 ^ width c in if is_signed c then (if m <? 2 ^ (width c - 1) then m else m - 2 ^ width c) else m.
Definition size (z : Z) : Z := z mod 2 ^ 64.

Section Machine.
Variable c : ctype.
(** [const size_t diff = rect.hi[d] - rect.lo[d] + 1]: Pitches.hpp:36, 72, 104 *)
Definition m_diff (l0 h0 : Z) : outcome Z := do d <- coord_expr c (h0 - l0); do e <- coord_expr c (d + 1); Ok (size e).

(** C order, the iterations with d > 0: Pitches.hpp:31-44; [None] is the early [return 0]. *)
Fixpoint m_flatten_c_tail (l h : point) : outcome (option (Z * Z * list Z)) :=
  match l, h with
  | l0 :: l', h0 :: h' =>
      do r <- m_flatten_c_tail l' h';
      match r with
      | None => Ok None
      | Some (pitch, vol, ps) =>
          if l0 >? h0 then Ok None
          else do diff <- m_diff l0 h0; Ok (Some (size (pitch * diff), size (vol * diff), size (pitch * diff) :: ps))
      end
  | _, _ => Ok (Some (1, 1, []))
  end.
(** the last iteration, d = 0, and the specialisation for one dimension: Pitches.hpp:31-46, 98-105 *)
Definition m_flatten_c (b : rect) : outcome (Z * list Z) :=
  match lo b, hi b with
  | l0 :: l', h0 :: h' =>
      do r <- m_flatten_c_tail l' h';
      match r with
      | None => Ok (0, [])
      | Some (_, vol, ps) => if l0 >? h0 then Ok (0, []) else do diff <- m_diff l0 h0; Ok (size (vol * diff), ps)
      end
  | _, _ => Ok (1, [])
  end.
(** Fortran order: Pitches.hpp:66-82 *)
Fixpoint m_flatten_f_loop (pitch vol : Z) (ps : list Z) (l h : point) : outcome (Z * list Z) :=
  match l, h with
  | l0 :: l', h0 :: h' =>
      if l0 >? h0 then Ok (0, [])
      else
        do diff <- m_diff l0 h0;
        match l' with
        | [] => Ok (size (vol * diff), ps)
        | _ => m_flatten_f_loop (size (pitch * diff)) (size (vol * diff)) (ps ++ [size (pitch * diff)]) l' h'
        end
  | _, _ => Ok (vol, ps)
  end.
Definition m_flatten (o : IndexOrder) (b : rect) : outcome (Z * list Z) :=
  match o with ROW_MAJOR => m_flatten_c b | COLUMN_MAJOR => m_flatten_f_loop 1 1 [] (lo b) (hi b) end.

(** [point[d] += q] with [q] a std::size_t: the coordinate is converted to std::size_t, added there, and converted back. *)
Definition m_plus (x q : Z) : Z := to_coord c (size (size x + q)).
(** unflatten: Pitches.hpp:48-56, 107-112; dividing by a zero pitch is undefined *)
Fixpoint m_unflatten_c (pitches : list Z) (index : Z) (l : point) : outcome point :=
  match pitches, l with
  | p :: ps, x :: l' => if p =? 0 then UB else do r <- m_unflatten_c ps (index mod p) l'; Ok (m_plus x (index / p) :: r)
  | [], x :: l' => Ok (m_plus x index :: l')
  | _, [] => Ok []
  end.
(** Pitches.hpp:83-92 *)
Definition m_unflatten (o : IndexOrder) (pitches : list Z) (index : Z) (l : point) : outcome point :=
  match o with ROW_MAJOR => m_unflatten_c pitches index l | COLUMN_MAJOR => do q <- m_unflatten_c (rev pitches) index (rev l); Ok (rev q) end.

(** get_num_blocks_1d (CudaLibs.hpp:25-27) and the conversion of its std::size_t to the [unsigned] grid dimension. *)
Definition m_num_blocks (threads : Z) : Z := size (threads + THREADS_PER_BLOCK - 1) / THREADS_PER_BLOCK.
Definition grid (blocks : Z) : Z := blocks mod 2 ^ 32.
(** A launch with no block or with more blocks than the device's limit for the x dimension of a grid (2^31 - 1) is an
    error, and no thread runs; the error is looked at only by later debug checks (CUDAUtilities.cpp:111-124). *)
Definition launched (blocks : Z) : list Z := if (1 <=? grid blocks) && (grid blocks <=? 2 ^ 31 - 1) then thread_ids (grid blocks) else [].
(** the points touched by the launch of XPAY on a non-empty piece: LinearAlgebraTasks.cu:168-175, 126-130 *)
Fixpoint collect (l : list (outcome point)) : outcome (list point) :=
  match l with [] => Ok [] | a :: l' => do p <- a; do ps <- collect l'; Ok (p :: ps) end.
Definition m_xpay_kernel_points (b : rect) : outcome (list point) :=
  do vp <- m_flatten ROW_MAJOR b;
  let '(vol, pitches) := vp in
  collect (map (fun idx => m_unflatten ROW_MAJOR pitches idx (lo b)) (filter (fun idx => negb (idx >=? vol)) (launched (m_num_blocks vol)))).
End Machine.
