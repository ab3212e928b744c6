(** StencilSize: calculate_stencil_size of src/StencilGenerator.hpp:270-323. *)
From Verif Require Import Base Index Outcome.
Local Open Scope Z_scope.

(** sub_offsets of one slice: /repo/src/StencilGenerator.hpp:302-309.  [hd 0 o] is offset[0]; [tl] is the
    helper tail() of lines 262-267. *)
Definition sub_offsets {E} (l0 h0 i : Z) (offsets : list (point * E)) : list (point * E) :=
  flat_map (fun oe : point * E =>
              if (l0 <=? i + hd 0 (fst oe)) && (i + hd 0 (fst oe) <=? h0)
              then [(tl (fst oe), snd oe)] else []) offsets.

(** min_offset / max_offset: /repo/src/StencilGenerator.hpp:290-295. *)
Definition min_offset {E} (offsets : list (point * E)) : Z :=
  fold_left (fun m (oe : point * E) => Z.min m (hd 0 (fst oe))) offsets 0.
Definition max_offset {E} (offsets : list (point * E)) : Z :=
  fold_left (fun m (oe : point * E) => Z.max m (hd 0 (fst oe))) offsets 0.

(** the slice loop: /repo/src/StencilGenerator.hpp:298-320.  [sub] is the recursive call on the
    (DIM-1)-dimensional slice; [i = i_new] followed by ++i is [i_new + 1]. *)
Fixpoint slice_loop {E} (fuel : nat) (sub : list (point * E) -> outcome Z) (l0 h0 mn mx : Z)
         (offsets : list (point * E)) (i result : Z) : outcome Z :=
  match fuel with
  | O => OutOfFuel
  | S f =>
      if i <=? h0 then
        let subs := sub_offsets l0 h0 i offsets in
        if (length subs =? length offsets)%nat then
          oassert (i =? l0 - mn)
            (let i_new := h0 - mx in
             oassert (i_new >=? i)
               (do r <- sub subs;
                slice_loop f sub l0 h0 mn mx offsets (i_new + 1) (result + (i_new - i + 1) * r)))
        else
          do r <- sub subs;
          slice_loop f sub l0 h0 mn mx offsets (i + 1) (result + r)
      else Ok result
  end.

(** the DIM == 1 case: /repo/src/StencilGenerator.hpp:279-286 (size_t values are non-negative; unbounded Z). *)
Definition stencil_size_1d {E} (l0 h0 : Z) (offsets : list (point * E)) : Z :=
  let len := volume (mk_rect [l0] [h0]) in
  fold_left (fun result (oe : point * E) =>
               let distance := Z.abs (hd 0 (fst oe)) in
               if distance <=? len then result + (len - distance) else result) offsets 0.

(** calculate_stencil_size: /repo/src/StencilGenerator.hpp:270-323, by recursion on DIM.
    DIM = 0 does not exist in the code: [UB]. *)
Fixpoint stencil_size_aux {E} (fuel : nat) (l h : point) (offsets : list (point * E)) : outcome Z :=
  match l, h with
  | l0 :: l', h0 :: h' =>
      match offsets with
      | [] => Ok 0
      | _ :: _ =>
          match l' with
          | [] => Ok (stencil_size_1d l0 h0 offsets)
          | _ :: _ =>
              slice_loop fuel (stencil_size_aux fuel l' h') l0 h0
                         (min_offset offsets) (max_offset offsets) offsets l0 0
          end
      end
  | _, _ => UB
  end.
Definition calculate_stencil_size {E} (fuel : nat) (b : rect) (offsets : list (point * E)) : outcome Z :=
  stencil_size_aux fuel (lo b) (hi b) offsets.
