(** Pitches: the flatten/unflatten helper of the GPU kernels (/repo/src/Pitches.hpp) and the XPAY kernel launch that
    uses it (/repo/src/LinearAlgebraTasks.cu:118-131, 168-175; /repo/src/CudaLibs.hpp:16-27).
    SIMPLIFICATION: size_t wrap-around is not modelled (volumes below 2^64). *)
From Verif Require Import Base Index.
Local Open Scope Z_scope.

(** The C-order loop of flatten (/repo/src/Pitches.hpp:31-45): [d] runs from DIM down to 0, i.e. over the list from its
    end.  This is the part with d > 0: returns [pitch], [volume] and the stored pitches[d-1] for the dimensions seen so
    far (in increasing d); [None] is the early [return 0]. *)
Fixpoint flatten_c_tail (l h : point) : option (Z * Z * list Z) :=
  match l, h with
  | l0 :: l', h0 :: h' =>
      match flatten_c_tail l' h' with
      | None => None
      | Some (pitch, vol, ps) =>
          if l0 >? h0 then None
          else let diff := h0 - l0 + 1 in Some (pitch * diff, vol * diff, (pitch * diff) :: ps)
      end
  | _, _ => Some (1, 1, [])
  end.
(** The last iteration d = 0 only multiplies the volume.  The result is the returned volume and the array [pitches].
    The specialisation Pitches<0> (:98-106) is the same with an empty tail. *)
Definition flatten_c (b : rect) : Z * list Z :=
  match lo b, hi b with
  | l0 :: l', h0 :: h' =>
      match flatten_c_tail l' h' with
      | None => (0, [])
      | Some (_, vol, ps) => if l0 >? h0 then (0, []) else (vol * (h0 - l0 + 1), ps)
      end
  | _, _ => (1, [])
  end.

(** The Fortran-order loop (/repo/src/Pitches.hpp:66-80): [d] from 0 up; the pitch is stored when d < DIM, i.e. when
    there is a further dimension. *)
Fixpoint flatten_f_loop (pitch vol : Z) (ps : list Z) (l h : point) : Z * list Z :=
  match l, h with
  | l0 :: l', h0 :: h' =>
      if l0 >? h0 then (0, [])
      else
        let diff := h0 - l0 + 1 in
        match l' with
        | [] => (vol * diff, ps)
        | _ => flatten_f_loop (pitch * diff) (vol * diff) (ps ++ [pitch * diff]) l' h'
        end
  | _, _ => (vol, ps)
  end.
Definition flatten_f (b : rect) : Z * list Z := flatten_f_loop 1 1 [] (lo b) (hi b).

(** unflatten, C order (/repo/src/Pitches.hpp:48-56; 107-112 for DIM = 0): divide by pitches[0], pitches[1], ...; the rest goes to the
    last coordinate. *)
Fixpoint unflatten_c (pitches : list Z) (index : Z) (l : point) : point :=
  match pitches, l with
  | p :: ps, x :: l' => (x + index / p) :: unflatten_c ps (index mod p) l'
  | [], x :: l' => (x + index) :: l'
  | _, [] => []
  end.
(** unflatten, Fortran order (/repo/src/Pitches.hpp:83-91): the same loop with the arrays traversed backwards
    (point[d+1] and pitches[d] for d = DIM-1 .. 0, the rest to point[0]). *)
Definition unflatten_f (pitches : list Z) (index : Z) (l : point) : point :=
  rev (unflatten_c (rev pitches) index (rev l)).

Definition flatten (o : IndexOrder) : rect -> Z * list Z :=
  match o with ROW_MAJOR => flatten_c | COLUMN_MAJOR => flatten_f end.
Definition unflatten (o : IndexOrder) : list Z -> Z -> point -> point :=
  match o with ROW_MAJOR => unflatten_c | COLUMN_MAJOR => unflatten_f end.

(** THREADS_PER_BLOCK and get_num_blocks_1d: /repo/src/CudaLibs.hpp:14-27. *)
Definition THREADS_PER_BLOCK : Z := 128.
Definition get_num_blocks_1d (threads : Z) : Z := (threads + THREADS_PER_BLOCK - 1) / THREADS_PER_BLOCK.

(** The indices [global_tid_1d()] of a launch with [blocks] blocks: blockIdx.x * blockDim.x + threadIdx.x
    (/repo/src/CudaLibs.hpp:17-20). *)
Definition thread_ids (blocks : Z) : list Z :=
  flat_map (fun b => map (fun t => b * THREADS_PER_BLOCK + t) (zrange 0 (THREADS_PER_BLOCK - 1))) (zrange 0 (blocks - 1)).

(** The points the XPAY kernel launch touches, one per thread that passes the bound check
    (/repo/src/LinearAlgebraTasks.cu:126-130, 168-175). *)
Definition xpay_kernel_points (b : rect) : list point :=
  let '(vol, pitches) := flatten_c b in
  map (fun idx => unflatten_c pitches idx (lo b))
      (filter (fun idx => negb (idx >=? vol)) (thread_ids (get_num_blocks_1d vol))).
