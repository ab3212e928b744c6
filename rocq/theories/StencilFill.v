(** StencilFill: the four stencil fill tasks of src/StencilGenerator.cpp. *)
From Verif Require Import Base Index Outcome Sched.
Local Open Scope Z_scope.

Section Fill.
Variable E : Type.          (* ENTRY_T *)
Variable ltE : E -> E -> bool. (* operator< on ENTRY_T *)

(** The comparator lambda passed to std::sort: /repo/src/StencilGenerator.cpp:42-51 (row-major),
    54-63 (column-major); repeated at 159-183, 278-302, 411-435. *)
Definition offset_less (o : IndexOrder) (p q : point * E) : bool :=
  if compare o (fst p) (fst q) then true
  else if compare o (fst q) (fst p) then false
  else ltE (snd p) (snd q).

(** std::sort(offsets.begin(), offsets.end(), offset_less): any rearrangement in which no later element is
    less than an earlier one (C++ contract; the order of equivalent elements is unspecified). *)
Definition std_sort (o : IndexOrder) (offsets sorted : list (point * E)) : Prop :=
  Permutation offsets sorted /\
  StronglySorted (fun p q => offset_less o q p = false) sorted.

(** Memory written by the tasks: fields row, col, entry of the kernel region (indexed by kernel position) and
    field rowptr of the row-pointer region (indexed by range point).  Linearised tasks store one-dimensional
    points. *)
Inductive loc := LRow (k : Z) | LCol (k : Z) | LEntry (k : Z) | LRowptr (p : point).
Inductive cell := CPoint (p : point) | CEntry (e : E) | CRect (first last : Z).
Definition wstep := step loc cell.
Definition wr (l : loc) (c : cell) : wstep := mk_step l [] (fun _ => c).

(** matrix_domain / rowptr_domain of a piece when only contains() is used
    (StencilGenerator.cpp:89-90, 100; 327-330, 341, 349). *)

(** Inner loop over offsets for one grid point: StencilGenerator.cpp:97-107, 209-221, 338-347, 495-505.
    [emit k shifted e] = the writes guarded by matrix_domain.contains(kernel_index). *)
Fixpoint row_loop (b : rect) (emit : Z -> point -> E -> list wstep) (offsets : list (point * E))
         (p : point) (kernel_index : Z) : list wstep * Z :=
  match offsets with
  | [] => ([], kernel_index)
  | (o, e) :: os =>
      let shifted := padd p o in
      if contains b shifted then
        let '(ws, k') := row_loop b emit os p (kernel_index + 1) in
        (emit kernel_index shifted e ++ ws, k')
      else row_loop b emit os p kernel_index
  end.

(** the do-while loop: StencilGenerator.cpp:96-108, 111-123, 208-222, 225-239, 336-353, 356-373, 519-540. *)
Fixpoint fill_loop (fuel : nat) (inc : point -> point * bool) (body : point -> Z -> list wstep * Z)
         (p : point) (kernel_index : Z) : outcome (list wstep * Z) :=
  match fuel with
  | O => OutOfFuel
  | S f =>
      let '(ws, k1) := body p kernel_index in
      let '(q, more) := inc p in
      if more then
        do r <- fill_loop f inc body q k1;
        Ok (ws ++ fst r, snd r)
      else Ok (ws, k1)
  end.

(** FillCOOStencilTask: StencilGenerator.cpp:92-125 (enc = identity) and
    FillLinearizedCOOStencilTask: 204-241 (enc = linearize).  [mdom] = matrix_domain.contains.
    The Args/offsets decoding (24-39) is modelled in ArgBuffer.v; [offsets] is the sorted vector. *)
Definition emit_coo (enc : point -> point) (mdom : Z -> bool) (p : point) (k : Z) (shifted : point) (e : E) : list wstep :=
  if mdom k then [wr (LRow k) (CPoint (enc p)); wr (LCol k) (CPoint (enc shifted)); wr (LEntry k) (CEntry e)] else [].
Definition coo_body (b : rect) (enc : point -> point) (mdom : Z -> bool) (offsets : list (point * E))
           (p : point) (k : Z) : list wstep * Z :=
  row_loop b (emit_coo enc mdom p) offsets p k.
Definition fill_coo_gen (fuel : nat) (o : IndexOrder) (b : rect) (enc : point -> point) (mdom : Z -> bool)
           (offsets : list (point * E)) : outcome (list wstep * Z) :=
  fill_loop fuel (increment o b) (coo_body b enc mdom offsets) (lo b) 0.
Definition fill_coo_task fuel o b mdom offsets := fill_coo_gen fuel o b (fun p => p) mdom offsets.
Definition fill_linearized_coo_task fuel o b mdom offsets :=
  fill_coo_gen fuel o b (fun p => [linearize o b p]) mdom offsets.

(** FillCSRStencilTask: StencilGenerator.cpp:332-375 (enc = identity) and the COLUMN_MAJOR branch of
    FillLinearizedCSRStencilTask: 518-541 (enc = linearize).  [rdom] = rowptr_domain.contains. *)
Definition emit_csr (enc : point -> point) (mdom : Z -> bool) (k : Z) (shifted : point) (e : E) : list wstep :=
  if mdom k then [wr (LCol k) (CPoint (enc shifted)); wr (LEntry k) (CEntry e)] else [].
Definition csr_body (b : rect) (enc : point -> point) (mdom : Z -> bool) (rdom : point -> bool)
           (offsets : list (point * E)) (p : point) (k : Z) : list wstep * Z :=
  let row_begin := k in
  let '(ws, k') := row_loop b (emit_csr enc mdom) offsets p k in
  let row_end := k' - 1 in
  (ws ++ (if rdom (enc p) then [wr (LRowptr (enc p)) (CRect row_begin row_end)] else []), k').
Definition fill_csr_gen (fuel : nat) (o : IndexOrder) (b : rect) (enc : point -> point) (mdom : Z -> bool)
           (rdom : point -> bool) (offsets : list (point * E)) : outcome (list wstep * Z) :=
  fill_loop fuel (increment o b) (csr_body b enc mdom rdom offsets) (lo b) 0.
Definition fill_csr_task fuel o b mdom rdom offsets := fill_csr_gen fuel o b (fun p => p) mdom rdom offsets.

(** A one-dimensional Legion::Domain of a piece with lo()[0], hi()[0] and contains(); it may be sparse or empty
    (StencilGenerator.cpp:457-460, 478, 481, 498, 507, 512-513). *)
Record dom1 := mk_dom1 { dlo : Z; dhi : Z; dmem : Z -> bool }.

(** The ROW_MAJOR branch of FillLinearizedCSRStencilTask: StencilGenerator.cpp:462-517. *)
Section Skip.
Variables (b : rect) (offsets : list (point * E)) (mdom rdom : dom1).
Let lower_bound := fst (leading_dimension_bounds offsets).
Let upper_bound := snd (leading_dimension_bounds offsets).

(** point[0] + lower_bound >= bounds.lo[0] && point[0] + upper_bound <= bounds.hi[0]: lines 475-476, 487-488. *)
Definition in_bulk (p : point) : bool :=
  (hd 0 p + lower_bound >=? hd 0 (lo b)) && (hd 0 p + upper_bound <=? hd 0 (hi b)).

(** while loop: lines 475-484. *)
Fixpoint skip_loop (fuel : nat) (bulk_slice_size : Z) (p : point) (k : Z) : outcome (point * Z) :=
  match fuel with
  | O => OutOfFuel
  | S f =>
      if in_bulk p && (k + bulk_slice_size <? dlo mdom)
         && (linearize_row_major b (increment_head p) <? dlo rdom)
      then skip_loop f bulk_slice_size (increment_head p) (k + bulk_slice_size)
      else Ok (p, k)
  end.

(** lines 471-492: (point, kernel_index, bulk_slice_origin, found_bulk_slice). *)
Definition prologue (fuel : nat) (p : point) (k origin : Z) (found : bool) : outcome (point * Z * Z * bool) :=
  if tail_equal p (lo b) then
    do pk <- (if found then skip_loop fuel (k - origin) p k else Ok (p, k));
    let '(p', k') := pk in
    if negb found && in_bulk p' then Ok (p', k', k', true) else Ok (p', k', origin, found)
  else Ok (p, k, origin, found).

(** lines 469-516. *)
Fixpoint lin_csr_loop (fuel : nat) (p : point) (k origin : Z) (found : bool) : outcome (list wstep) :=
  match fuel with
  | O => OutOfFuel
  | S f =>
      do st <- prologue fuel p k origin found;
      let '(p1, k1, origin1, found1) := st in
      let point_lin := linearize_row_major b p1 in
      let row_begin := k1 in
      let '(ws, k2) := row_loop b (emit_csr (fun q => [linearize_row_major b q]) (dmem mdom)) offsets p1 k1 in
      let row_end := k2 - 1 in
      let ws1 := ws ++ (if dmem rdom point_lin then [wr (LRowptr [point_lin]) (CRect row_begin row_end)] else []) in
      if (k2 >? dhi mdom) && (point_lin >? dhi rdom) then Ok ws1
      else
        let '(q, more) := increment_row_major b p1 in
        if more then do r <- lin_csr_loop f q k2 origin1 found1; Ok (ws1 ++ r) else Ok ws1
  end.
End Skip.

(** FillLinearizedCSRStencilTask: StencilGenerator.cpp:462-542. *)
Definition fill_linearized_csr_task (fuel : nat) (o : IndexOrder) (b : rect) (mdom rdom : dom1)
           (offsets : list (point * E)) : outcome (list wstep) :=
  match o with
  | ROW_MAJOR => lin_csr_loop b offsets mdom rdom fuel (lo b) 0 0 false
  | COLUMN_MAJOR =>
      do r <- fill_csr_gen fuel COLUMN_MAJOR b (fun p => [linearize_column_major b p]) (dmem mdom)
                (fun p => dmem rdom (hd 0 p)) offsets;
      Ok (fst r)
  end.
End Fill.
Arguments wr {E}.
Arguments CPoint {E}.
Arguments CEntry {E}.
Arguments CRect {E}.
Arguments offset_less {E}.
Arguments std_sort {E}.
Arguments row_loop {E}.
Arguments fill_loop {E}.
Arguments emit_coo {E}.
Arguments coo_body {E}.
Arguments fill_coo_gen {E}.
Arguments fill_coo_task {E}.
Arguments fill_linearized_coo_task {E}.
Arguments emit_csr {E}.
Arguments csr_body {E}.
Arguments fill_csr_gen {E}.
Arguments fill_csr_task {E}.
Arguments in_bulk {E}.
Arguments skip_loop {E}.
Arguments prologue {E}.
Arguments lin_csr_loop {E}.
Arguments fill_linearized_csr_task {E}.
