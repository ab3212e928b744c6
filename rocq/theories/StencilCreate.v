(** StencilCreate: create_coo_stencil_matrix, create_csr_stencil_matrix and create_linearized_csr_stencil_matrix of
    src/StencilGenerator.hpp:326-643, as the set of memories their launches can leave behind.
    Not modelled here: handles and reference counts (Ownership.v), argument packing (ArgBuffer.v). *)
From Verif Require Import Base Index Outcome Sched PartitionSpec StencilSize StencilFill.
Local Open Scope Z_scope.

Section Create.
Variable E : Type.
Variable ltE : E -> E -> bool.

(** Legion's create_equal_partition (StencilGenerator.hpp:369-370, 472-473, 477-478): external; all that is used
    is that the pieces are disjoint, complete and inside the space. *)
Definition is_partition {A} (S : A -> Prop) (pieces : list (A -> bool)) : Prop :=
  complete_partition S pieces /\ disjoint_pieces pieces /\ pieces_within S pieces.

(** The kernel index space Rect<1>(0, stencil_size - 1): lines 341-344, 434-437. *)
Definition kernel_space (size k : Z) : Prop := 0 <= k <= size - 1.

(** StencilGenerator.hpp:326-416.  [linear] selects FillCOOStencilTask (as in the code) or
    FillLinearizedCOOStencilTask (registered at Initialize.cpp, launched by user code).
    [sorted] is the result of std::sort, the same in every task as std::sort is deterministic. *)
Definition create_coo_stencil (linear : bool) (fuel : nat) (o : IndexOrder) (b : rect) (offsets sorted : list (point * E))
           (pieces : list (Z -> bool)) (tr : list (wstep E)) (size : Z) : Prop :=
  calculate_stencil_size fuel b offsets = Ok size /\
  is_partition (kernel_space size) pieces /\
  std_sort ltE o offsets sorted /\
  exists ts, Forall2 (fun m t => exists k,
      (if linear then fill_linearized_coo_task fuel o b m sorted else fill_coo_task fuel o b m sorted) = Ok (t, k)) pieces ts
    /\ interleave ts tr.

(** StencilGenerator.hpp:419-530: range space = bounds. *)
Definition create_csr_stencil (fuel : nat) (o : IndexOrder) (b : rect) (offsets sorted : list (point * E))
           (pieces : list ((Z -> bool) * (point -> bool))) (tr : list (wstep E)) (size : Z) : Prop :=
  calculate_stencil_size fuel b offsets = Ok size /\
  is_partition (kernel_space size) (map fst pieces) /\
  is_partition (fun p => contains b p = true) (map snd pieces) /\
  std_sort ltE o offsets sorted /\
  exists ts, Forall2 (fun m t => exists k, fill_csr_task fuel o b (fst m) (snd m) sorted = Ok (t, k)) pieces ts
    /\ interleave ts tr.

(** A Legion::Domain of a piece: lo() and hi() bound its points, and an empty piece of a space of [n] points
    has a lower bound that is at most n (Realm's canonical empty rectangle is [1,0]). *)
Definition dom1_ok (n : Z) (d : dom1) : Prop :=
  (forall k, dmem d k = true -> dlo d <= k <= dhi d) /\ dlo d <= n.

(** StencilGenerator.hpp:533-643: range space = Rect<1>(0, volume - 1), lines 553-555. *)
Definition create_linearized_csr_stencil (fuel : nat) (o : IndexOrder) (b : rect) (offsets sorted : list (point * E))
           (pieces : list (dom1 * dom1)) (tr : list (wstep E)) (size : Z) : Prop :=
  calculate_stencil_size fuel b offsets = Ok size /\
  is_partition (kernel_space size) (map (fun m => dmem (fst m)) pieces) /\
  is_partition (fun k => 0 <= k <= volume b - 1) (map (fun m => dmem (snd m)) pieces) /\
  Forall (fun m => (forall k, dmem (fst m) k = true -> dlo (fst m) <= k <= dhi (fst m)) /\ dom1_ok (volume b) (snd m)) pieces /\
  std_sort ltE o offsets sorted /\
  exists ts, Forall2 (fun m t => fill_linearized_csr_task fuel o b (fst m) (snd m) sorted = Ok t) pieces ts
    /\ interleave ts tr.
End Create.
Arguments create_coo_stencil {E}.
Arguments create_csr_stencil {E}.
Arguments create_linearized_csr_stencil {E}.
