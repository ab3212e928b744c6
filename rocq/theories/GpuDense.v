(** GpuDense: the cuBLAS variants of scal, axpy and dot (/repo/src/LinearAlgebraTasks.cu:14-56, 59-113, 179-238;
    /repo/src/CUDAUtilities.hpp:109-119) on device memory.
    SIMPLIFICATIONS: device memory is a function from element addresses (in units of one element) to values.  cuBLAS is
    modelled by its documented contract with increments 1; how it rounds alpha*x+y is the parameter [mac], the order in
    which dot adds is left open ([reduces_to]).  Handles and streams are not modelled (all calls of a task are on its
    stream). *)
From Verif Require Import Base Index Outcome Arith Vector.
Local Open Scope Z_scope.
Set Implicit Arguments.

(** Legion::AffineAccessor (what AffineReader/AffineReaderWriter are): the address of element [p] is
    base + sum of stride_d * p_d; base and strides are chosen by the mapper. *)
Record instance := mk_instance { i_base : Z; i_strides : list Z }.
Fixpoint offset (strides p : list Z) : Z :=
  match strides, p with
  | s :: strides', x :: p' => s * x + offset strides' p'
  | _, _ => 0
  end.
(** accessor.ptr(p) *)
Definition ptr_of (i : instance) (p : point) : Z := i_base i + offset (i_strides i) p.

(** The conversion of get_volume()'s size_t to the [int n] parameter of the wrappers (CUDAUtilities.hpp:109-119). *)
Definition to_int (z : Z) : Z :=
  let m := z mod 2 ^ 32 in if m <? 2 ^ 31 then m else m - 2 ^ 32.

(** A Legion::Domain: a rectangle (dense) or a set of points with a sparsity map. *)
Inductive domain := Dense (b : rect) | Sparse (ps : list point).
Definition dense (d : domain) : bool := match d with Dense _ => true | Sparse _ => false end.

Section GpuDense.
Variable T : Type.
Variable A : arith T.
Variable mac : T -> T -> T -> T.   (* the device's alpha * x + y *)

(** cublas<t>scal, cublas<t>axpy, cublas<t>dot with incx = incy = 1; nothing happens when n <= 0 (dot gives 0). *)
Definition cublas_scal (n : Z) (alpha : T) (x : Z) (m : Z -> T) : Z -> T :=
  fun a => if (x <=? a) && (a <? x + n) then amul A alpha (m a) else m a.
Definition cublas_axpy (n : Z) (alpha : T) (x y : Z) (m : Z -> T) : Z -> T :=
  fun a => if (y <=? a) && (a <? y + n) then mac alpha (m (x + (a - y))) (m a) else m a.
Definition cublas_dot (n : Z) (x y : Z) (m : Z -> T) (r : T) : Prop :=
  reduces_to A (map (fun i => amul A (m (x + i)) (m (y + i))) (zrange 0 (n - 1))) r.

(** ScalTask::cuda_task_body: /repo/src/LinearAlgebraTasks.cu:14-56. *)
Definition scal_cuda (alpha : T) (d : domain) (x : instance) (m : Z -> T) : outcome (Z -> T) :=
  oassert (dense d)
    match d with
    | Dense b => Ok (if volume b =? 0 then m else cublas_scal (to_int (volume b)) alpha (ptr_of x (lo b)) m)
    | Sparse _ => Ok m
    end.
(** AxpyTask::cuda_task_body: /repo/src/LinearAlgebraTasks.cu:59-113 (y_domain == x_domain holds for every launch: both
    requirements use the same partition, PartitionedVector.cpp:211-284). *)
Definition axpy_cuda (alpha : T) (d : domain) (y x : instance) (m : Z -> T) : outcome (Z -> T) :=
  oassert (dense d)
    match d with
    | Dense b => Ok (if volume b =? 0 then m else cublas_axpy (to_int (volume b)) alpha (ptr_of x (lo b)) (ptr_of y (lo b)) m)
    | Sparse _ => Ok m
    end.
(** DotTask::cuda_task_body: /repo/src/LinearAlgebraTasks.cu:179-238, as the set of values it may return. *)
Definition dot_cuda (d : domain) (v w : instance) (m : Z -> T) (r : T) : outcome Prop :=
  oassert (dense d)
    match d with
    | Dense b => Ok (if volume b =? 0 then r = a0 A else cublas_dot (to_int (volume b)) (ptr_of v (lo b)) (ptr_of w (lo b)) m r)
    | Sparse _ => Ok True
    end.
End GpuDense.
