(** StencilMachine: the stencil generator once more, with the machine arithmetic of the C++ code: coordinates of type COORD_T
    (int or long long), kernel positions of type Legion::coord_t, sizes of type std::size_t.  Overflow of a signed type is
    undefined behaviour; std::size_t wraps around.
    COORD_T = unsigned is not covered: create_*_stencil_matrix does not compile for it (std::abs(unsigned) is ambiguous,
    StencilGenerator.hpp:284). *)
From Verif Require Import Base Index Outcome Sched PartitionSpec StencilSize StencilFill StencilCreate.
Set Implicit Arguments.
Local Open Scope Z_scope.

(** The integer types: [cmin] .. [cmax] is COORD_T, - kmax - 1 .. kmax is Legion::coord_t (long long), 0 .. 2 * kmax + 1 is
    std::size_t. *)
Record int_types := mk_int_types { cmin : Z; cmax : Z; kmax : Z }.
Definition int_S32 : int_types := mk_int_types (- 2 ^ 31) (2 ^ 31 - 1) (2 ^ 63 - 1).
Definition int_S64 : int_types := mk_int_types (- 2 ^ 63) (2 ^ 63 - 1) (2 ^ 63 - 1).

Section Machine.
Variable I : int_types.
(** the value of a COORD_T / coord_t expression *)
Definition cc (z : Z) : outcome Z := if (cmin I <=? z) && (z <=? cmax I) then Ok z else UB.
Definition kc (z : Z) : outcome Z := if (- kmax I - 1 <=? z) && (z <=? kmax I) then Ok z else UB.
(** the value of a std::size_t expression *)
Definition sz (z : Z) : Z := z mod (2 * kmax I + 2).

(** Legion::Point operator+ (StencilGenerator.cpp:98) *)
Fixpoint m_padd (p q : point) : outcome point :=
  match p, q with
  | x :: p', y :: q' => do z <- cc (x + y); do r <- m_padd p' q'; Ok (z :: r)
  | _, _ => Ok []
  end.
(** StencilGenerator.hpp:139-145 *)
Definition m_increment_head (p : point) : outcome point :=
  match p with [] => Ok [] | x :: p' => do y <- cc (x + 1); Ok (y :: p') end.
(** StencilGenerator.hpp:198-211 *)
Fixpoint m_increment_row_major_aux (p l h : point) : outcome (point * bool) :=
  match p, l, h with
  | x :: p', l0 :: l', h0 :: h' =>
      do qm <- m_increment_row_major_aux p' l' h';
      let '(q, more) := qm in
      if more then Ok (x :: q, true)
      else if x >=? h0 then Ok (l0 :: q, false) else do y <- cc (x + 1); Ok (y :: q, true)
  | _, _, _ => Ok (p, false)
  end.
(** StencilGenerator.hpp:214-227 *)
Fixpoint m_increment_column_major_aux (p l h : point) : outcome (point * bool) :=
  match p, l, h with
  | x :: p', l0 :: l', h0 :: h' =>
      if x >=? h0 then
        do qm <- m_increment_column_major_aux p' l' h'; let '(q, more) := qm in Ok (l0 :: q, more)
      else do y <- cc (x + 1); Ok (y :: p', true)
  | _, _, _ => Ok (p, false)
  end.
Definition m_increment (o : IndexOrder) (b : rect) (p : point) : outcome (point * bool) :=
  match o with ROW_MAJOR => m_increment_row_major_aux p (lo b) (hi b) | COLUMN_MAJOR => m_increment_column_major_aux p (lo b) (hi b) end.
(** one iteration of the linearisation loops: StencilGenerator.hpp:239-240, 255-256 *)
Definition m_linearize_step (result acc x l0 h0 : Z) : outcome (Z * Z) :=
  do d <- cc (x - l0);
  do t <- cc (acc * d);
  do r <- cc (result + t);
  do e <- cc (h0 - l0);
  do e1 <- cc (e + 1);
  do a <- cc (acc * e1);
  Ok (r, a).
(** StencilGenerator.hpp:230-243 *)
Fixpoint m_linearize_row_major_aux (p l h : point) : outcome (Z * Z) :=
  match p, l, h with
  | x :: p', l0 :: l', h0 :: h' => do ra <- m_linearize_row_major_aux p' l' h'; m_linearize_step (fst ra) (snd ra) x l0 h0
  | _, _, _ => Ok (0, 1)
  end.
(** StencilGenerator.hpp:246-259 *)
Fixpoint m_linearize_column_major_aux (result acc : Z) (p l h : point) : outcome (Z * Z) :=
  match p, l, h with
  | x :: p', l0 :: l', h0 :: h' => do ra <- m_linearize_step result acc x l0 h0; m_linearize_column_major_aux (fst ra) (snd ra) p' l' h'
  | _, _, _ => Ok (result, acc)
  end.
Definition m_linearize (o : IndexOrder) (b : rect) (p : point) : outcome Z :=
  match o with
  | ROW_MAJOR => do ra <- m_linearize_row_major_aux p (lo b) (hi b); Ok (fst ra)
  | COLUMN_MAJOR => do ra <- m_linearize_column_major_aux 0 1 p (lo b) (hi b); Ok (fst ra)
  end.

Variable E : Type.
Variable ltE : E -> E -> bool.

(** *** calculate_stencil_size: StencilGenerator.hpp:270-323 *)
(** the guard and the sub_offsets of one slice, lines 302-309; [&&] does not evaluate its second operand when the first is false,
    but both operands contain the same sum *)
Fixpoint m_sub_offsets (l0 h0 i : Z) (offsets : list (point * E)) : outcome (list (point * E)) :=
  match offsets with
  | [] => Ok []
  | oe :: os =>
      do s <- cc (i + hd 0 (fst oe));
      do r <- m_sub_offsets l0 h0 i os;
      Ok (if (l0 <=? s) && (s <=? h0) then (tl (fst oe), snd oe) :: r else r)
  end.
(** lines 298-320; ++i at the end of every iteration *)
Fixpoint m_slice_loop (fuel : nat) (sub : list (point * E) -> outcome Z) (l0 h0 mn mx : Z)
         (offsets : list (point * E)) (i result : Z) : outcome Z :=
  match fuel with
  | O => OutOfFuel
  | S f =>
      if i <=? h0 then
        do subs <- m_sub_offsets l0 h0 i offsets;
        if (length subs =? length offsets)%nat then
          do first <- cc (l0 - mn);
          oassert (i =? first)
            (do i_new <- cc (h0 - mx);
             oassert (i_new >=? i)
               (do d <- cc (i_new - i);
                do n <- cc (d + 1);
                do r <- sub subs;
                do i' <- cc (i_new + 1);
                m_slice_loop f sub l0 h0 mn mx offsets i' (sz (result + sz (n * r)))))
        else
          do r <- sub subs;
          do i' <- cc (i + 1);
          m_slice_loop f sub l0 h0 mn mx offsets i' (sz (result + r))
      else Ok result
  end.
(** std::abs: undefined for the most negative value *)
Definition m_abs (z : Z) : outcome Z := cc (Z.abs z).
(** lines 279-286; Rect::volume() is Legion's, [length - distance] does not wrap because of the guard *)
Fixpoint m_size_1d (len : Z) (offsets : list (point * E)) (result : Z) : outcome Z :=
  match offsets with
  | [] => Ok result
  | oe :: os =>
      do a <- m_abs (hd 0 (fst oe));
      let distance := sz a in
      m_size_1d len os (if distance <=? len then sz (result + (len - distance)) else result)
  end.
Fixpoint m_stencil_size_aux (fuel : nat) (l h : point) (offsets : list (point * E)) : outcome Z :=
  match l, h with
  | l0 :: l', h0 :: h' =>
      match offsets with
      | [] => Ok 0
      | _ :: _ =>
          match l' with
          | [] => m_size_1d (volume (mk_rect [l0] [h0])) offsets 0
          | _ :: _ =>
              m_slice_loop fuel (m_stencil_size_aux fuel l' h') l0 h0
                         (min_offset offsets) (max_offset offsets) offsets l0 0
          end
      end
  | _, _ => UB
  end.
Definition m_calculate_stencil_size (fuel : nat) (b : rect) (offsets : list (point * E)) : outcome Z :=
  m_stencil_size_aux fuel (lo b) (hi b) offsets.

(** *** the fill tasks *)
(** StencilGenerator.cpp:97-107 and its repetitions; ++kernel_index is coord_t arithmetic *)
Fixpoint m_row_loop (b : rect) (emit : Z -> point -> E -> outcome (list (wstep E))) (offsets : list (point * E))
         (p : point) (kernel_index : Z) : outcome (list (wstep E) * Z) :=
  match offsets with
  | [] => Ok ([], kernel_index)
  | (o, e) :: os =>
      do shifted <- m_padd p o;
      if contains b shifted then
        do w <- emit kernel_index shifted e;
        do k1 <- kc (kernel_index + 1);
        do r <- m_row_loop b emit os p k1;
        Ok (w ++ fst r, snd r)
      else m_row_loop b emit os p kernel_index
  end.
Fixpoint m_fill_loop (fuel : nat) (inc : point -> outcome (point * bool)) (body : point -> Z -> outcome (list (wstep E) * Z))
         (p : point) (kernel_index : Z) : outcome (list (wstep E) * Z) :=
  match fuel with
  | O => OutOfFuel
  | S f =>
      do wk <- body p kernel_index;
      do qm <- inc p;
      if snd qm then
        do r <- m_fill_loop f inc body (fst qm) (snd wk);
        Ok (fst wk ++ fst r, snd r)
      else Ok wk
  end.
(** StencilGenerator.cpp:92-125, 204-241 *)
Definition m_emit_coo (enc : point -> outcome point) (mdom : Z -> bool) (p : point) (k : Z) (shifted : point) (e : E) : outcome (list (wstep E)) :=
  if mdom k then
    do r <- enc p;
    do c <- enc shifted;
    Ok [wr (LRow k) (CPoint r); wr (LCol k) (CPoint c); wr (LEntry k) (CEntry e)]
  else Ok [].
Definition m_fill_coo_gen (fuel : nat) (o : IndexOrder) (b : rect) (enc : point -> outcome point) (mdom : Z -> bool)
           (offsets : list (point * E)) : outcome (list (wstep E) * Z) :=
  m_fill_loop fuel (m_increment o b) (fun p k => m_row_loop b (m_emit_coo enc mdom p) offsets p k) (lo b) 0.
Definition m_enc_id (p : point) : outcome point := Ok p.
Definition m_enc_lin (o : IndexOrder) (b : rect) (p : point) : outcome point := do z <- m_linearize o b p; Ok [z].
Definition m_fill_coo_task fuel o b mdom offsets := m_fill_coo_gen fuel o b m_enc_id mdom offsets.
Definition m_fill_linearized_coo_task fuel o b mdom offsets := m_fill_coo_gen fuel o b (m_enc_lin o b) mdom offsets.
(** StencilGenerator.cpp:332-375, 518-541: the row's point is linearised before the loop over the offsets *)
Definition m_emit_csr (enc : point -> outcome point) (mdom : Z -> bool) (k : Z) (shifted : point) (e : E) : outcome (list (wstep E)) :=
  if mdom k then do c <- enc shifted; Ok [wr (LCol k) (CPoint c); wr (LEntry k) (CEntry e)] else Ok [].
Definition m_csr_body (b : rect) (enc : point -> outcome point) (mdom : Z -> bool) (rdom : point -> bool)
           (offsets : list (point * E)) (p : point) (k : Z) : outcome (list (wstep E) * Z) :=
  do q <- enc p;
  do wk <- m_row_loop b (m_emit_csr enc mdom) offsets p k;
  do row_end <- kc (snd wk - 1);
  Ok (fst wk ++ (if rdom q then [wr (LRowptr q) (CRect k row_end)] else []), snd wk).
Definition m_fill_csr_gen (fuel : nat) (o : IndexOrder) (b : rect) (enc : point -> outcome point) (mdom : Z -> bool)
           (rdom : point -> bool) (offsets : list (point * E)) : outcome (list (wstep E) * Z) :=
  m_fill_loop fuel (m_increment o b) (m_csr_body b enc mdom rdom offsets) (lo b) 0.
Definition m_fill_csr_task fuel o b mdom rdom offsets := m_fill_csr_gen fuel o b m_enc_id mdom rdom offsets.

(** StencilGenerator.cpp:462-517 *)
Section Skip.
Variables (b : rect) (offsets : list (point * E)) (mdom rdom : dom1).
Let lower_bound := fst (leading_dimension_bounds offsets).
Let upper_bound := snd (leading_dimension_bounds offsets).
Definition m_in_bulk (p : point) : outcome bool :=
  do a <- cc (hd 0 p + lower_bound);
  if a >=? hd 0 (lo b) then do c <- cc (hd 0 p + upper_bound); Ok (c <=? hd 0 (hi b)) else Ok false.
Fixpoint m_skip_loop (fuel : nat) (bulk_slice_size : Z) (p : point) (k : Z) : outcome (point * Z) :=
  match fuel with
  | O => OutOfFuel
  | S f =>
      do i <- m_in_bulk p;
      if i then
        do k' <- kc (k + bulk_slice_size);
        if k' <? dlo mdom then
          do q <- m_increment_head p;
          do z <- m_linearize ROW_MAJOR b q;
          if z <? dlo rdom then m_skip_loop f bulk_slice_size q k' else Ok (p, k)
        else Ok (p, k)
      else Ok (p, k)
  end.
Definition m_prologue (fuel : nat) (p : point) (k origin : Z) (found : bool) : outcome (point * Z * Z * bool) :=
  if tail_equal p (lo b) then
    do pk <- (if found then do s <- kc (k - origin); m_skip_loop fuel s p k else Ok (p, k));
    let '(p', k') := pk in
    if found then Ok (p', k', origin, found)
    else do i <- m_in_bulk p'; if i then Ok (p', k', k', true) else Ok (p', k', origin, found)
  else Ok (p, k, origin, found).
Fixpoint m_lin_csr_loop (fuel : nat) (p : point) (k origin : Z) (found : bool) : outcome (list (wstep E)) :=
  match fuel with
  | O => OutOfFuel
  | S f =>
      do st <- m_prologue fuel p k origin found;
      let '(p1, k1, origin1, found1) := st in
      do point_lin <- m_linearize ROW_MAJOR b p1;
      do wk <- m_row_loop b (m_emit_csr (m_enc_lin ROW_MAJOR b) (dmem mdom)) offsets p1 k1;
      let k2 := snd wk in
      do row_end <- kc (k2 - 1);
      let ws1 := fst wk ++ (if dmem rdom point_lin then [wr (LRowptr [point_lin]) (CRect k1 row_end)] else []) in
      if (k2 >? dhi mdom) && (point_lin >? dhi rdom) then Ok ws1
      else
        do qm <- m_increment ROW_MAJOR b p1;
        if snd qm then do r <- m_lin_csr_loop f (fst qm) k2 origin1 found1; Ok (ws1 ++ r) else Ok ws1
  end.
End Skip.
Definition m_fill_linearized_csr_task (fuel : nat) (o : IndexOrder) (b : rect) (mdom rdom : dom1)
           (offsets : list (point * E)) : outcome (list (wstep E)) :=
  match o with
  | ROW_MAJOR => m_lin_csr_loop b offsets mdom rdom fuel (lo b) 0 0 false
  | COLUMN_MAJOR =>
      do r <- m_fill_csr_gen fuel COLUMN_MAJOR b (m_enc_lin COLUMN_MAJOR b) (dmem mdom) (fun p => dmem rdom (hd 0 p)) offsets;
      Ok (fst r)
  end.

(** *** the creators: StencilGenerator.hpp:326-643, as in StencilCreate.v.  The space of kernel positions is
    Rect<1, coord_t>(0, stencil_size - 1): the std::size_t difference wraps around and is converted to coord_t. *)
Definition to_coord (z : Z) : Z := if z <=? kmax I then z else z - (2 * kmax I + 2).
Definition m_kernel_space (size k : Z) : Prop := 0 <= k <= to_coord (sz (size - 1)).
Definition m_create_coo_stencil (linear : bool) (fuel : nat) (o : IndexOrder) (b : rect) (offsets sorted : list (point * E))
           (pieces : list (Z -> bool)) (tr : list (wstep E)) (size : Z) : Prop :=
  m_calculate_stencil_size fuel b offsets = Ok size /\
  is_partition (m_kernel_space size) pieces /\
  std_sort ltE o offsets sorted /\
  exists ts, Forall2 (fun m t => exists k,
      (if linear then m_fill_linearized_coo_task fuel o b m sorted else m_fill_coo_task fuel o b m sorted) = Ok (t, k)) pieces ts
    /\ interleave ts tr.
Definition m_create_csr_stencil (fuel : nat) (o : IndexOrder) (b : rect) (offsets sorted : list (point * E))
           (pieces : list ((Z -> bool) * (point -> bool))) (tr : list (wstep E)) (size : Z) : Prop :=
  m_calculate_stencil_size fuel b offsets = Ok size /\
  is_partition (m_kernel_space size) (map fst pieces) /\
  is_partition (fun p => contains b p = true) (map snd pieces) /\
  std_sort ltE o offsets sorted /\
  exists ts, Forall2 (fun m t => exists k, m_fill_csr_task fuel o b (fst m) (snd m) sorted = Ok (t, k)) pieces ts
    /\ interleave ts tr.
(** The range space Rect<1, COORD_T>{0, bounds.volume() - 1} is converted to COORD_T; only volumes that fit are modelled
    (hypothesis of the theorems). *)
Definition m_create_linearized_csr_stencil (fuel : nat) (o : IndexOrder) (b : rect) (offsets sorted : list (point * E))
           (pieces : list (dom1 * dom1)) (tr : list (wstep E)) (size : Z) : Prop :=
  m_calculate_stencil_size fuel b offsets = Ok size /\
  is_partition (m_kernel_space size) (map (fun m => dmem (fst m)) pieces) /\
  is_partition (fun k => 0 <= k <= volume b - 1) (map (fun m => dmem (snd m)) pieces) /\
  Forall (fun m => (forall k, dmem (fst m) k = true -> dlo (fst m) <= k <= dhi (fst m)) /\ dom1_ok (volume b) (snd m)) pieces /\
  std_sort ltE o offsets sorted /\
  exists ts, Forall2 (fun m t => m_fill_linearized_csr_task fuel o b (fst m) (snd m) sorted = Ok t) pieces ts
    /\ interleave ts tr.
End Machine.
