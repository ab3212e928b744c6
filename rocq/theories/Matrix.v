(** Matrix: COOMatrix, CSRMatrix (/repo/src/COOMatrix.cpp, CSRMatrix.cpp), their CPU matvec tasks
    (/repo/src/COOMatrixTasks.cpp, CSRMatrixTasks.cpp) and the dependent partitioning they request from Legion.
    SIMPLIFICATION: the row/col/entry/rowptr fields of a matrix are constant functions (every launch of this
    library requests them READ_ONLY: COOMatrix.cpp:172-177, CSRMatrix.cpp:185-200), so they are not locations of
    the store. *)
From Verif Require Import Base Index Outcome Sched Async Arith Launch Vector.
Set Implicit Arguments.

Section Matrix.
Variable T : Type.
Variable A : arith T.
Variable lg : legion.
Notation step := (step loc T).

(** The contents of a COO kernel region: its points in the order PointInDomainIterator visits them, and the
    fields fid_row, fid_col, fid_entry (/repo/src/COOMatrix.hpp, COOMatrix.cpp:10-28). *)
Record coo := mk_coo { co_kpts : list point; co_row : point -> point; co_col : point -> point; co_entry : point -> T }.
(** The contents of a CSR kernel region and of its rowptr region (index space handle [cs_rows]):
    /repo/src/CSRMatrix.cpp:10-33. *)
Record csr := mk_csr { cs_kpts : list point; cs_col : point -> point; cs_entry : point -> T;
                       cs_rows : nat; cs_rowptr : point -> rect }.
Inductive matrix := COO (m : coo) | CSR (m : csr).

(** Legion dependent partitioning (run-time contract of create_partition_by_preimage, _by_image,
    _by_image_range, _by_preimage_range): piece by piece. *)
Definition preimage (kpts : list point) (field : point -> point) (ps : list (list point)) : list (list point) :=
  map (fun piece => filter (fun kp => mem (field kp) piece) kpts) ps.
Definition image (space : list point) (field : point -> point) (kps : list (list point)) : list (list point) :=
  map (fun kpiece => filter (fun p => mem p (map field kpiece)) space) kps.
Definition image_range (kpts : list point) (field : point -> rect) (ps : list (list point)) : list (list point) :=
  map (fun piece => filter (fun kp => existsb (fun r => contains (field r) kp) piece) kpts) ps.
Definition preimage_range (rows : list point) (field : point -> rect) (kps : list (list point)) : list (list point) :=
  map (fun kpiece => filter (fun r => existsb (fun kp => contains (field r) kp) kpiece) rows) kps.

(** create_kernel_partition_from_domain_partition: /repo/src/COOMatrix.cpp:58-74, CSRMatrix.cpp:70-86. *)
Definition kernel_from_domain (m : matrix) (q : nat) : outcome (list (list point)) :=
  match m with
  | COO c => Ok (preimage (co_kpts c) (co_col c) (part_pieces lg q))
  | CSR c => Ok (preimage (cs_kpts c) (cs_col c) (part_pieces lg q))
  end.
(** create_kernel_partition_from_range_partition: /repo/src/COOMatrix.cpp:79-95, CSRMatrix.cpp:91-109.
    For CSR the partition must partition the row-pointer region's index space (get_logical_partition, line 97);
    otherwise Legion reports an error ([UB]). *)
Definition kernel_from_range (m : matrix) (q : nat) : outcome (list (list point)) :=
  match m with
  | COO c => Ok (preimage (co_kpts c) (co_row c) (part_pieces lg q))
  | CSR c => if part_parent lg q =? cs_rows c then Ok (image_range (cs_kpts c) (cs_rowptr c) (part_pieces lg q)) else UB
  end.
(** create_domain_partition_from_kernel_partition: /repo/src/COOMatrix.cpp:100-118, CSRMatrix.cpp:114-132. *)
Definition domain_from_kernel (m : matrix) (space : nat) (kps : list (list point)) : list (list point) :=
  match m with
  | COO c => image (is_points lg space) (co_col c) kps
  | CSR c => image (is_points lg space) (cs_col c) kps
  end.
(** create_range_partition_from_kernel_partition: /repo/src/COOMatrix.cpp:123-141, CSRMatrix.cpp:137-155 (with
    its assert, line 141). *)
Definition range_from_kernel (m : matrix) (space : nat) (kps : list (list point)) : outcome (list (list point)) :=
  match m with
  | COO c => Ok (image (is_points lg space) (co_row c) kps)
  | CSR c => oassert (space =? cs_rows c) (Ok (preimage_range (is_points lg (cs_rows c)) (cs_rowptr c) kps))
  end.
(** domain_partition_from_range_partition / range_partition_from_domain_partition:
    /repo/src/AbstractMatrix.cpp:8-29. *)
Definition domain_partition_from_range_partition (m : matrix) (domain_space q : nat) : outcome (list (list point)) :=
  do kps <- kernel_from_range m q; Ok (domain_from_kernel m domain_space kps).
Definition range_partition_from_domain_partition (m : matrix) (range_space q : nat) : outcome (list (list point)) :=
  do kps <- kernel_from_domain m q; range_from_kernel m range_space kps.

(** output_writer[row] <<= entry * input[col] (SumReduction: +=): COOMatrixTasks.cpp:72, CSRMatrixTasks.cpp:89. *)
Definition accumulate_step (dst src : pvec) (row col : point) (e : T) : step :=
  mk_step (at_point dst row) [at_point dst row; at_point src col]
    (fun vs => match vs with [d; x] => aadd A d (amul A e x) | _ => a0 A end).

(** COOMatvecTask body: /repo/src/COOMatrixTasks.cpp:11-75 for one colour: [piece] the destination piece,
    [kpiece] the kernel piece, [ghost] the source piece. *)
Definition coo_task (m : coo) (dst src : pvec) (piece kpiece ghost : list point) : list step :=
  flat_map (fun kp =>
    let row := co_row m kp in
    let col := co_col m kp in
    if mem col ghost && mem row piece then [accumulate_step dst src row col (co_entry m kp)] else []) kpiece.

(** The row search of CSRMatvecTask: /repo/src/CSRMatrixTasks.cpp:75-86 (the LAST row of the piece whose
    interval contains kp; [None] when row_found stays false). *)
Definition csr_find_row (rowptr : point -> rect) (rows : list point) (kp : point) : option point :=
  fold_left (fun found cur_row => if contains (rowptr cur_row) kp then Some cur_row else found) rows None.
(** CSRMatvecTask body: /repo/src/CSRMatrixTasks.cpp:11-92 for one colour; the row-pointer piece is the
    destination piece (CSRMatrix.cpp:191-194).  assert(row_found) aborts. *)
Fixpoint csr_task (m : csr) (dst src : pvec) (piece ghost kpiece : list point) : outcome (list step) :=
  match kpiece with
  | [] => Ok []
  | kp :: rest =>
      match csr_find_row (cs_rowptr m) piece kp with
      | None => AssertFail
      | Some row =>
          let col := cs_col m kp in
          do steps <- csr_task m dst src piece ghost rest;
          Ok ((if mem col ghost && mem row piece then [accumulate_step dst src row col (cs_entry m kp)] else []) ++ steps)
      end
  end.
Fixpoint sequence {X} (l : list (outcome X)) : outcome (list X) :=
  match l with
  | [] => Ok []
  | o :: rest => do x <- o; do xs <- sequence rest; Ok (x :: xs)
  end.

(** COOMatrix::matvec: /repo/src/COOMatrix.cpp:145-191; CSRMatrix::matvec: /repo/src/CSRMatrix.cpp:159-214.
    [kps] / [ghosts]: the kernel partition and ghost partition passed in; the launch domain is the colour space
    of the destination, so all three must have the same colours (otherwise Legion reports an error, [UB]). *)
Definition matvec_reqs (dst src : pvec) (ghosts : list (list point)) : list requirement :=
  [get_requirement lg dst READ_WRITE; mk_req (pv_region src) (pv_fid src) ghosts READ_ONLY].
Definition matvec_tasks (m : matrix) (dst src : pvec) (kps ghosts : list (list point)) : outcome (list (list step)) :=
  sequence (map (fun x => let '(piece, (kpiece, ghost)) := x in
      match m with
      | COO c => Ok (coo_task c dst src piece kpiece ghost)
      | CSR c => csr_task c dst src piece ghost kpiece
      end) (combine (pieces lg dst) (combine kps ghosts))).
Definition matvec (m : matrix) (dst src : pvec) (kps ghosts : list (list point)) : outcome (launch T) :=
  if (length kps =? length (pieces lg dst)) && (length ghosts =? length (pieces lg dst)) &&
     match m with COO _ => true | CSR c => part_parent lg (pv_part dst) =? cs_rows c end
  then
    do tasks <- matvec_tasks m dst src kps ghosts;
    submit (mk_launch tasks (matvec_reqs dst src ghosts) [] None [] [])
  else UB.
End Matrix.
Arguments mk_coo {T}.
Arguments mk_csr {T}.
Arguments COO {T}.
Arguments CSR {T}.
