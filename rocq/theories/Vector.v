(** Vector: PartitionedVector (/repo/src/PartitionedVector.cpp) and the vector tasks
    (/repo/src/LinearAlgebraTasks.cpp), on CPU processors.  The CUDA variants are in Gpu.v and GpuDense.v; reference counting
    of the handles is in Ownership.v. *)
From Verif Require Import Base Index Outcome Sched Async Arith Launch.
Set Implicit Arguments.

(** PartitionedVector members used by the operations (/repo/src/PartitionedVector.hpp:16-25); field_space and
    name are irrelevant here. *)
Record pvec := mk_pvec { pv_space : nat; pv_fid : nat; pv_region : nat; pv_colors : nat; pv_part : nat }.

(** The constructors (/repo/src/PartitionedVector.cpp:26-61 and 65-95), for the region [region] (fresh in the
    first, given in the second) and field [fid] (0 in the first). *)
Definition make_vector (lg : legion) (q region fid : nat) : outcome pvec :=
  oassert (is_disjoint lg q) (oassert (is_complete lg q)
    (Ok {| pv_space := part_parent lg q; pv_fid := fid; pv_region := region;
           pv_colors := part_colors lg q; pv_part := q |})).

(** The three asserts shared by the binary operations (e.g. /repo/src/PartitionedVector.cpp:179-181, 214-216,
    239-241, 266-268, 291-293, 316-318, 339-341). *)
Definition same_layout (y x : pvec) : bool :=
  (pv_space y =? pv_space x) && (pv_colors y =? pv_colors x) && (pv_part y =? pv_part x).

Section Vector.
Variable T : Type.
Variable A : arith T.
Variable lg : legion.
Notation step := (step loc T).

Definition at_point (v : pvec) (p : point) : loc := LVec (pv_region v) (pv_fid v) p.
Definition pieces (v : pvec) : list (list point) := part_pieces lg (pv_part v).
(** PartitionedVector::get_requirement: /repo/src/PartitionedVector.cpp:131-147. *)
Definition get_requirement (v : pvec) (pr : privilege) : requirement :=
  mk_req (pv_region v) (pv_fid v) (pieces v) pr.

(** get_alpha: /repo/src/LegionUtilities.cpp:73-97. *)
Definition get_alpha (futures : list T) : outcome T :=
  match futures with
  | [] => Ok (a1 A)
  | [f0] => Ok f0
  | [f0; f1] => Ok (adiv A f0 f1)
  | [f0; f1; f2] => Ok (adiv A (amul A f0 f1) f2)
  | [f0; f1; f2; f3] => Ok (adiv A (amul A f0 f1) (amul A f2 f3))
  | _ => AssertFail
  end.
(** A task reading its futures first and then element values; [k] is the element computation.  When get_alpha
    aborts, the launch is not issued in the model (see [alpha_ok]), so the last case is never reached. *)
Definition with_alpha (n : nat) (k : T -> list T -> T) (vs : list T) : T :=
  match get_alpha (firstn n vs) with
  | Ok alpha => k alpha (skipn n vs)
  | _ => a0 A
  end.
(** the assert(false) of get_alpha is hit by every point task as soon as five or more futures are passed *)
Definition alpha_ok (fs : list nat) : bool := length fs <=? 4.

(** ScalTask body: /repo/src/LinearAlgebraTasks.cpp:16-44 (one iteration, line 41). *)
Definition scal_step (x : pvec) (fs : list nat) (p : point) : step :=
  mk_step (at_point x p) (map LFut fs ++ [at_point x p])
    (with_alpha (length fs) (fun alpha es => match es with [xv] => amul A alpha xv | _ => a0 A end)).
(** AxpyTask body: /repo/src/LinearAlgebraTasks.cpp:48-88 (one iteration, lines 84-85). *)
Definition axpy_step (y x : pvec) (fs : list nat) (p : point) : step :=
  mk_step (at_point y p) (map LFut fs ++ [at_point x p; at_point y p])
    (with_alpha (length fs) (fun alpha es => match es with [xv; yv] => afma A alpha xv yv | _ => a0 A end)).
(** XpayTask body: /repo/src/LinearAlgebraTasks.cpp:92-132 (one iteration, lines 128-129). *)
Definition xpay_step (y x : pvec) (fs : list nat) (p : point) : step :=
  mk_step (at_point y p) (map LFut fs ++ [at_point x p; at_point y p])
    (with_alpha (length fs) (fun alpha es => match es with [xv; yv] => afma A alpha yv xv | _ => a0 A end)).
(** IndexCopyLauncher (Legion contract): destination element := source element. *)
Definition copy_step (y x : pvec) (p : point) : step :=
  mk_step (at_point y p) [at_point x p] (fun es => match es with [xv] => xv | _ => a0 A end).
(** IndexFillLauncher (Legion contract): element := fill value (immediate, or the value of a future). *)
Definition fill_step (v : pvec) (c : T) (p : point) : step := mk_step (at_point v p) [] (fun _ => c).
Definition fill_future_step (v : pvec) (n : nat) (p : point) : step :=
  mk_step (at_point v p) [LFut n] (fun es => match es with [c] => c | _ => a0 A end).

Definition pointwise (v : pvec) (f : point -> step) : list (list step) := map (map f) (pieces v).

(** constant_fill(ENTRY_T) and zero_fill: /repo/src/PartitionedVector.cpp:151-161, PartitionedVector.hpp:83. *)
Definition constant_fill (v : pvec) (c : T) : outcome (launch T) :=
  submit (mk_launch (pointwise v (fill_step v c)) [get_requirement v WRITE_DISCARD] [] None [] []).
Definition zero_fill (v : pvec) : outcome (launch T) := constant_fill v (a0 A).
(** constant_fill(Scalar): /repo/src/PartitionedVector.cpp:165-172. *)
Definition constant_fill_future (v : pvec) (n : nat) : outcome (launch T) :=
  submit (mk_launch (pointwise v (fill_future_step v n)) [get_requirement v WRITE_DISCARD] [n] None [] []).
(** operator=(PartitionedVector): /repo/src/PartitionedVector.cpp:176-191. *)
Definition copy (y x : pvec) : outcome (launch T) :=
  oassert (same_layout y x)
    (submit (mk_launch (pointwise y (copy_step y x)) [get_requirement x READ_ONLY; get_requirement y WRITE_DISCARD] [] None [] [])).
(** scal: /repo/src/PartitionedVector.cpp:195-207. *)
Definition scal (x : pvec) (fs : list nat) : outcome (launch T) :=
  oassert (alpha_ok fs)
    (submit (mk_launch (pointwise x (scal_step x fs)) [get_requirement x READ_WRITE] fs None [] [])).
(** axpy (three overloads, 1, 2 or 3 futures): /repo/src/PartitionedVector.cpp:211-284. *)
Definition axpy (y : pvec) (fs : list nat) (x : pvec) : outcome (launch T) :=
  oassert (same_layout y x) (oassert (alpha_ok fs)
    (submit (mk_launch (pointwise y (axpy_step y x fs)) [get_requirement y READ_WRITE; get_requirement x READ_ONLY] fs None [] []))).
(** xpay (two overloads): /repo/src/PartitionedVector.cpp:288-333. *)
Definition xpay (y : pvec) (fs : list nat) (x : pvec) : outcome (launch T) :=
  oassert (same_layout y x) (oassert (alpha_ok fs)
    (submit (mk_launch (pointwise y (xpay_step y x fs)) [get_requirement y READ_WRITE; get_requirement x READ_ONLY] fs None [] []))).

(** DotTask body: /repo/src/LinearAlgebraTasks.cpp:136-175: result = 0; for each point result += v*w.
    [vs] is v_p1, w_p1, v_p2, w_p2, ...  The reads of one task are one model step: nothing that runs
    concurrently may write them (Async.v). *)
Fixpoint dot_loop (result : T) (vs : list T) : T :=
  match vs with
  | x :: y :: rest => dot_loop (aadd A result (amul A x y)) rest
  | _ => result
  end.
Definition dot_task (v w : pvec) (n c : nat) (piece : list point) : list step :=
  [mk_step (LPart n c) (flat_map (fun p => [at_point v p; at_point w p]) piece) (dot_loop (a0 A))].
(** The partial results of the colours are combined by Legion with LEGION_REDOP_SUM in an order Legion
    chooses: [reduction n] is that (unspecified) combination for future [n]. *)
Variable reduction : nat -> list T -> T.
(** dot: /repo/src/PartitionedVector.cpp:337-358, returning future [n]. *)
Definition dot (v w : pvec) (n : nat) : outcome (list (launch T)) :=
  oassert (same_layout v w)
    (do ln <- submit (mk_launch
        (map (fun cp => dot_task v w n (fst cp) (snd cp)) (combine (seq 0 (length (pieces v))) (pieces v)))
        [get_requirement v READ_ONLY; get_requirement w READ_ONLY] [] None []
        (map (pair n) (seq 0 (length (pieces v)))));
     Ok [ln;
         mk_launch [[mk_step (LFut n) (map (LPart n) (seq 0 (length (pieces v)))) (reduction n)]]
           [] [] (Some n) (map (pair n) (seq 0 (length (pieces v)))) []]).
End Vector.

(** What Legion may compute when it combines reduction partials: any binary tree of additions over any
    permutation of them; an empty reduction (or unused leaf) is the identity 0 of SumReduction. *)
Inductive reduces_to {T} (A : arith T) : list T -> T -> Prop :=
| red_empty : reduces_to A [] (a0 A)
| red_leaf x : reduces_to A [x] x
| red_node l l1 l2 x y : Permutation l (l1 ++ l2) -> reduces_to A l1 x -> reduces_to A l2 y ->
    reduces_to A l (aadd A x y).
Definition legal_reduction {T} (A : arith T) (reduction : nat -> list T -> T) : Prop :=
  forall n l, reduces_to A l (reduction n l).
