(** ExampleSystems: the 1-D negative Laplacian generators of /repo/src/ExampleSystems.cpp and the size formula of
    /repo/src/ExampleSystems.hpp, and the matrices that a filled memory represents.
    The memory vocabulary (LRow, LCol, LEntry, LRowptr, wr) is that of StencilFill.v.
    SIMPLIFICATION: coordinates are unbounded integers (coord_t is 64 bit; 3n-2 does not overflow for n < 3*10^18). *)
From Verif Require Import Base Index Outcome Sched Arith Launch StencilFill PartitionSpec Vector Matrix.
Set Implicit Arguments.
Local Open Scope Z_scope.

Section Laplacian.
Variable T : Type.
Variable A : arith T.
(** static_cast<ENTRY_T>(-1.0) and (+2.0) *)
Definition minus_one : T := aneg A (a1 A).
Definition plus_two : T := aadd A (a1 A) (a1 A).

(** kernel_size = 3 * grid_size - 2: ExampleSystems.cpp:35, 131 *)
Definition lap_kernel_size (n : Z) : Z := 3 * n - 2.
(** the values written at kernel position k: ExampleSystems.cpp:312-320 (COO), 386-390 (CSR); C++ / and % truncate *)
Definition lap_row (k : Z) : Z := Z.quot (k + 1) 3.
Definition lap_col (k : Z) : Z := k - 2 * Z.quot (k + 1) 3.
Definition lap_entry (k : Z) : T := if Z.rem k 3 =? 0 then plus_two else minus_one.
(** the rectangle written at row k: ExampleSystems.cpp:449-464 *)
Definition lap_rowptr (n k : Z) : Z * Z :=
  if k =? 0 then (0, 1)
  else if k =? n - 1 then (3 * n - 4, 3 * n - 3)
  else (3 * k - 1, 3 * k + 1).
(** FillCOONegativeLaplacianTask body (309-321) for a piece enumerated as [ks] *)
Definition lap_coo_task (ks : list Z) : list (wstep T) :=
  flat_map (fun k => [wr (LRow k) (CPoint [lap_row k]); wr (LCol k) (CPoint [lap_col k]); wr (LEntry k) (CEntry (lap_entry k))]) ks.
(** FillCSRNegativeLaplacianTask body (383-391) *)
Definition lap_csr_task (ks : list Z) : list (wstep T) :=
  flat_map (fun k => [wr (LCol k) (CPoint [lap_col k]); wr (LEntry k) (CEntry (lap_entry k))]) ks.
(** FillCSRNegativeLaplacianRowptrTask body (446-465) *)
Definition lap_rowptr_task (n : Z) (rs : list Z) : list (wstep T) :=
  flat_map (fun r => [wr (LRowptr [r]) (CRect (fst (lap_rowptr n r)) (snd (lap_rowptr n r)))]) rs.

(** create_equal_partition of [0, size-1] (54-55, 148-149, 198-199): external; any disjoint complete list of pieces *)
Definition partitions_range (size : Z) (pieces : list (list Z)) : Prop :=
  (forall k, 0 <= k < size <-> exists ks, In ks pieces /\ In k ks) /\
  (forall i j ki kj k, nth_error pieces i = Some ki -> nth_error pieces j = Some kj -> In k ki -> In k kj -> i = j).
(** coo_negative_laplacian_1d (12-105): the traces its launch can produce *)
Definition coo_laplacian_trace (n : Z) (pieces : list (list Z)) (tr : list (wstep T)) : Prop :=
  partitions_range (lap_kernel_size n) pieces /\ interleave (map lap_coo_task pieces) tr.
(** csr_negative_laplacian_1d (108-249): kernel launch and row-pointer launch; they write different regions, so Legion
    may run them concurrently (any interleaving of the tasks of both) *)
Definition csr_laplacian_trace (n : Z) (kpieces rpieces : list (list Z)) (tr : list (wstep T)) : Prop :=
  partitions_range (lap_kernel_size n) kpieces /\ partitions_range n rpieces /\
  interleave (map lap_csr_task kpieces ++ map (lap_rowptr_task n) rpieces) tr.
End Laplacian.

(** The matrix objects over a filled memory: COOMatrix (COOMatrix.cpp:10-28) and CSRMatrix (CSRMatrix.cpp:10-33) read the
    fields of the regions they are given.  [size] = number of points of the kernel space Rect<1>(0, size-1). *)
Definition kernel_points (size : Z) : list point := map (fun i => [Z.of_nat i]) (seq 0 (Z.to_nat size)).
Definition as_point {T} (c : cell T) : point := match c with CPoint p => p | _ => [] end.
Definition as_entry {T} (d : T) (c : cell T) : T := match c with CEntry e => e | _ => d end.
Definition as_rect {T} (c : cell T) : rect := match c with CRect a b => mk_rect [a] [b] | _ => mk_rect [] [] end.
Definition kernel_index (kp : point) : Z := hd 0 kp.
Definition coo_of {T} (A : arith T) (m : StencilFill.loc -> cell T) (size : Z) : coo T :=
  mk_coo (kernel_points size) (fun kp => as_point (m (LRow (kernel_index kp)))) (fun kp => as_point (m (LCol (kernel_index kp))))
    (fun kp => as_entry (a0 A) (m (LEntry (kernel_index kp)))).
Definition csr_of {T} (A : arith T) (m : StencilFill.loc -> cell T) (size : Z) (rows : nat) : csr T :=
  mk_csr (kernel_points size) (fun kp => as_point (m (LCol (kernel_index kp)))) (fun kp => as_entry (a0 A) (m (LEntry (kernel_index kp))))
    rows (fun p => as_rect (m (LRowptr p))).

(** laplacian_2d_kernel_size: /repo/src/ExampleSystems.hpp:33-42 *)
Definition laplacian_2d_kernel_size (height width : Z) : Z :=
  4 * 2 + (height - 2) * 2 * 3 + (width - 2) * 2 * 3 + (height - 2) * (width - 2) * 4 + width * height.
