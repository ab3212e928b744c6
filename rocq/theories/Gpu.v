(** Gpu: the CUDA variants of the matrix products (/repo/src/COOMatrixTasks.cu, CSRMatrixTasks.cu,
    CuSPARSEHelpers.hpp) and of the cuBLAS vector tasks (/repo/src/LinearAlgebraTasks.cu), as calls on device memory.
    All GPU matrix code is one-dimensional (static_asserts, CuSPARSEHelpers.hpp:59-61).
    SIMPLIFICATIONS: device memory is a partial function from element addresses (in units of one element) to values;
    [None] is memory outside every instance.  cuSPARSE/cuBLAS are modelled by their documented contracts; the order in
    which they add is left open ([reduces_to]).  Streams: every call is on the task's stream, so calls of one task are
    sequential. *)
From Verif Require Import Base Index Outcome Sched Async Arith Launch Vector Pitches.
Local Open Scope Z_scope.
Set Implicit Arguments.

(** A one-dimensional domain: its points in increasing order.  lo()/hi() are the bounds, get_volume() counts the points
    (also for a sparse domain), dense() says that every point between the bounds belongs to it. *)
Definition dom_lo (d : list Z) : Z := hd 1 d.
Definition dom_hi (d : list Z) : Z := last d 0.
Definition dom_volume (d : list Z) : Z := Z.of_nat (length d).
Definition dom_dense (d : list Z) : bool := dom_volume d =? dom_hi d - dom_lo d + 1.

Section Gpu.
Variable T : Type.
Variable A : arith T.

(** Device memory: entries, and indices (Point<1> is bit-identical to its coordinate, CuSPARSEHelpers.hpp:62-66). *)
Record device := mk_device { vals : Z -> option T; idxs : Z -> option Z }.
(** AffineAccessor::ptr(i) of a one-dimensional instance with unit stride whose element 0 is at [base]. *)
Definition ptr (base i : Z) : Z := base + i.

(** A dense or sparse operand as cuSPARSE sees it: a bare pointer and sizes. *)
Record coo_descr := mk_coo_descr { cd_rows : Z; cd_cols : Z; cd_nnz : Z; cd_row : Z; cd_col : Z; cd_val : Z }.
(** The CSR descriptor's row offsets live in the DeferredBuffer: [sd_indptr] is its contents. *)
Record csr_descr := mk_csr_descr { sd_rows : Z; sd_cols : Z; sd_nnz : Z; sd_indptr : Z -> option Z; sd_col : Z; sd_val : Z }.
(** cusparseCreateDnVec: size and pointer. *)
Record dn_descr := mk_dn_descr { dn_size : Z; dn_ptr : Z }.

(** One product val[k] * x[col[k]]. *)
Definition product (m : device) (col val x k : Z) : option T :=
  match idxs m (col + k), vals m (val + k) with
  | Some c, Some v => match vals m (x + c) with Some xv => Some (amul A v xv) | None => None end
  | _, _ => None
  end.
Definition somes {X} (l : list (option X)) : list X := flat_map (fun o => match o with Some x => [x] | None => [] end) l.

(** cusparseSpMV with a COO matrix, alpha = 1 and beta = 1 ([beta] = true) or 0: documented contract.
    Legal calls: indices in range (zero based), row indices sorted, everything read or written is mapped.
    With beta = 1 rows without entries are not touched. *)
Definition coo_row_ks (m : device) (d : coo_descr) (r : Z) : list Z :=
  filter (fun k => match idxs m (cd_row d + k) with Some r' => r' =? r | None => false end) (zrange 0 (cd_nnz d - 1)).
Definition spmv_coo_legal (m : device) (d : coo_descr) (x y : dn_descr) : Prop :=
  dn_size x = cd_cols d /\ dn_size y = cd_rows d /\
  (forall k, 0 <= k < cd_nnz d -> exists r c v xv yv,
     idxs m (cd_row d + k) = Some r /\ 0 <= r < cd_rows d /\
     idxs m (cd_col d + k) = Some c /\ 0 <= c < cd_cols d /\
     vals m (cd_val d + k) = Some v /\ vals m (dn_ptr x + c) = Some xv /\ vals m (dn_ptr y + r) = Some yv) /\
  (forall k r r', 0 <= k -> k + 1 < cd_nnz d -> idxs m (cd_row d + k) = Some r -> idxs m (cd_row d + (k + 1)) = Some r' -> r <= r').
Definition spmv_coo (d : coo_descr) (x y : dn_descr) (m m' : device) : Prop :=
  idxs m' = idxs m /\
  forall a,
    (0 <= a - dn_ptr y < cd_rows d -> coo_row_ks m d (a - dn_ptr y) <> [] ->
       exists yv s, vals m a = Some yv /\
         reduces_to A (somes (map (product m (cd_col d) (cd_val d) (dn_ptr x)) (coo_row_ks m d (a - dn_ptr y)))) s /\
         vals m' a = Some (aadd A yv s)) /\
    (~ (0 <= a - dn_ptr y < cd_rows d /\ coo_row_ks m d (a - dn_ptr y) <> []) -> vals m' a = vals m a).

(** cusparseSpMV with a CSR matrix, alpha = 1, beta = 0 or 1. *)
Definition spmv_csr_legal (m : device) (d : csr_descr) (x y : dn_descr) : Prop :=
  dn_size x = sd_cols d /\ dn_size y = sd_rows d /\
  sd_indptr d 0 = Some 0 /\ sd_indptr d (sd_rows d) = Some (sd_nnz d) /\
  (forall r, 0 <= r < sd_rows d -> exists a b yv, sd_indptr d r = Some a /\ sd_indptr d (r + 1) = Some b /\ a <= b /\
     vals m (dn_ptr y + r) = Some yv /\
     forall k, a <= k < b -> exists c v xv, idxs m (sd_col d + k) = Some c /\ 0 <= c < sd_cols d /\
        vals m (sd_val d + k) = Some v /\ vals m (dn_ptr x + c) = Some xv).
Definition csr_row_ks (d : csr_descr) (r : Z) : list Z :=
  match sd_indptr d r, sd_indptr d (r + 1) with Some a, Some b => zrange a (b - 1) | _, _ => [] end.
Definition spmv_csr (beta : bool) (d : csr_descr) (x y : dn_descr) (m m' : device) : Prop :=
  idxs m' = idxs m /\
  forall a,
    (0 <= a - dn_ptr y < sd_rows d ->
       exists yv s, vals m a = Some yv /\
         reduces_to A (somes (map (product m (sd_col d) (sd_val d) (dn_ptr x)) (csr_row_ks d (a - dn_ptr y)))) s /\
         vals m' a = Some (if beta then aadd A yv s else s)) /\
    (~ 0 <= a - dn_ptr y < sd_rows d -> vals m' a = vals m a).

(** makeCuSparseCOO: /repo/src/CuSPARSEHelpers.hpp:108-157. *)
Definition makeCuSparseCOO (rows cols : Z) (kdom : list Z) (brow bcol bval : Z) : coo_descr :=
  mk_coo_descr rows cols (dom_volume kdom) (ptr brow (dom_lo kdom)) (ptr bcol (dom_lo kdom)) (ptr bval (dom_lo kdom)).
(** makeCuSparseDnVec: :164-175; makeShiftedCuSparseDnVec: :189-203. *)
Definition makeCuSparseDnVec (d : list Z) (base : Z) : dn_descr := mk_dn_descr (dom_volume d) (ptr base (dom_lo d)).
Definition makeShiftedCuSparseDnVec (d : list Z) (size base : Z) : dn_descr := mk_dn_descr size (ptr base (dom_lo d) - dom_lo d).

(** COOMatvecTask::cuda_task_body: /repo/src/COOMatrixTasks.cu:13-146.  [None]: the task returns without a call (:72). *)
Definition coo_call (odom kdom idom : list Z) (by_ brow bcol bval bx : Z) : option (coo_descr * dn_descr * dn_descr) :=
  match kdom with
  | [] => None
  | _ =>
      let rows := dom_hi odom + 1 in
      let cols := dom_hi idom + 1 in
      Some (makeCuSparseCOO rows cols kdom brow bcol bval,
            makeShiftedCuSparseDnVec idom cols bx,
            makeShiftedCuSparseDnVec odom rows by_)
  end.
Definition coo_cuda_legal (odom kdom idom : list Z) (by_ brow bcol bval bx : Z) (m : device) : Prop :=
  match coo_call odom kdom idom by_ brow bcol bval bx with
  | None => True
  | Some (d, x, y) => spmv_coo_legal m d x y
  end.
Definition coo_cuda (odom kdom idom : list Z) (by_ brow bcol bval bx : Z) (m m' : device) : Prop :=
  match coo_call odom kdom idom by_ brow bcol bval bx with
  | None => m' = m
  | Some (d, x, y) => spmv_coo d x y m m'
  end.

(** convertGlobalRowptrToLocalIndPtr: /repo/src/CuSPARSEHelpers.hpp:10-33, one thread.  [rowptr] is the accessor (lo and
    hi of the row's interval). *)
Definition upd_buf (b : Z -> option Z) (i v : Z) : Z -> option Z := fun j => if j =? i then Some v else b j.
Definition convert_thread (rows lo : Z) (rowptr : Z -> Z * Z) (buf : Z -> option Z) (idx : Z) : Z -> option Z :=
  if idx >=? rows then buf
  else
    let buf1 := upd_buf buf idx (fst (rowptr (idx + lo)) - fst (rowptr lo)) in
    if idx =? 0 then upd_buf buf1 rows (snd (rowptr (rows - 1 + lo)) + 1 - fst (rowptr lo)) else buf1.
(** The launch (:75-79): the threads of the grid, in any order ([order] a permutation of the grid). *)
Definition convert_launch (order : list Z) (rows lo : Z) (rowptr : Z -> Z * Z) : Z -> option Z :=
  fold_left (convert_thread rows lo rowptr) order (fun _ => None).

(** makeCuSparseCSR: /repo/src/CuSPARSEHelpers.hpp:46-102. *)
Definition makeCuSparseCSR (order : list Z) (rows cols : Z) (rdom : list Z) (rowptr : Z -> Z * Z) (kdom : list Z) (bcol bval : Z) : csr_descr :=
  mk_csr_descr rows cols (dom_volume kdom) (convert_launch order rows (dom_lo rdom) rowptr)
    (ptr bcol (dom_lo kdom)) (ptr bval (dom_lo kdom)).

(** CSRMatvecTask::cuda_task_body: /repo/src/CSRMatrixTasks.cu:14-149; the row-pointer piece is the destination piece
    (CSRMatrix.cpp:191-194).  [Ok None]: the task returns early (:74). *)
Definition csr_call (order : list Z) (odom kdom idom : list Z) (rowptr : Z -> Z * Z) (by_ bcol bval bx : Z)
  : outcome (option (csr_descr * dn_descr * dn_descr)) :=
  oassert (dom_dense odom) (
    let rows := dom_volume odom in
    if rows =? 0 then Ok None
    else
      let cols := dom_hi idom + 1 in
      Ok (Some (makeCuSparseCSR order rows cols odom rowptr kdom bcol bval,
                makeShiftedCuSparseDnVec idom cols bx,
                makeCuSparseDnVec odom by_))).
(** beta is 0.0: CSRMatrixTasks.cu:111. *)
Definition csr_cuda (order odom kdom idom : list Z) (rowptr : Z -> Z * Z) (by_ bcol bval bx : Z) (m m' : device) : Prop :=
  match csr_call order odom kdom idom rowptr by_ bcol bval bx with
  | Ok None => m' = m
  | Ok (Some (d, x, y)) => spmv_csr false d x y m m'
  | _ => False
  end.
Definition csr_cuda_legal (order odom kdom idom : list Z) (rowptr : Z -> Z * Z) (by_ bcol bval bx : Z) (m : device) : Prop :=
  match csr_call order odom kdom idom rowptr by_ bcol bval bx with
  | Ok None => True
  | Ok (Some (d, x, y)) => spmv_csr_legal m d x y
  | _ => False
  end.
End Gpu.
