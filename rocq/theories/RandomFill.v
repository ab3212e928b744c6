(** RandomFill: RandomFillTask (/repo/src/UtilityTasks.cpp:127-170, UtilityTasks.hpp:110-120), launched over the pieces of a vector.
    The library registers the task but never launches it itself; the launch modelled here is the one its body asserts: one region
    requirement with one field, discarding the old contents, on the partition of a vector.
    What the engine of point task [c] produces after being seeded from std::random_device is an arbitrary sequence [words c] of 32-bit
    words (std::mt19937); the task calls the distribution once per point, in the order in which the points are enumerated.
    std::uniform_real_distribution and std::generate_canonical are modelled as in libstdc++ (bits/random.h, bits/random.tcc). *)
From Verif Require Import Base Index Outcome Sched Async Arith Launch Vector.
From Coq Require Import Floats.SpecFloat.
Set Implicit Arguments.
Local Open Scope Z_scope.

Section Canonical.
Variables p e : Z.      (* the entry type: float is 24, 128; double is 53, 1024 *)
(** static_cast<ENTRY_T> of an engine word and of 2^32 *)
Definition of_word (w : Z) : spec_float := binary_normalize p e w 0 false.
Definition engine_range : spec_float := binary_normalize p e (2 ^ 32) 0 false.
Definition one : spec_float := binary_normalize p e 1 0 false.
(** std::nextafter(1, 0) *)
Definition below_one : spec_float := S754_finite false (Z.to_pos (2 ^ p - 1)) (- p).
(** generate_canonical: number of words per result, max(1, (digits + 31) / 32) *)
Definition words_per_number : nat := Z.to_nat (Z.max 1 ((p + 31) / 32)).
(** generate_canonical: the loop; [next] is the rest of the engine's words *)
Fixpoint canonical_loop (k : nat) (next : nat -> Z) (sum tmp : spec_float) : spec_float * spec_float :=
  match k with
  | O => (sum, tmp)
  | S k' => canonical_loop k' (fun i => next (S i)) (SFadd p e sum (SFmul p e (of_word (next O)) tmp)) (SFmul p e tmp engine_range)
  end.
Definition canonical (next : nat -> Z) : spec_float :=
  let '(sum, tmp) := canonical_loop words_per_number next (S754_zero false) one in
  let ret := SFdiv p e sum tmp in
  if SFleb one ret then below_one else ret.
(** uniform_real_distribution(0, 1): canonical * (b - a) + a *)
Definition uniform01 (next : nat -> Z) : spec_float :=
  SFadd p e (SFmul p e (canonical next) (SFsub p e one (S754_zero false))) (S754_zero false).

(** the task body: UtilityTasks.cpp:166-169, from point number [i] of the piece on *)
Fixpoint random_steps (v : pvec) (words : nat -> Z) (i : nat) (piece : list point) : list (step loc spec_float) :=
  match piece with
  | [] => []
  | q :: piece' =>
      mk_step (at_point v q) [] (fun _ => uniform01 (fun k => words (i * words_per_number + k)%nat)) :: random_steps v words (S i) piece'
  end.
(** one point task per piece; each has its own engine *)
Fixpoint random_tasks (v : pvec) (words : nat -> nat -> Z) (c : nat) (pieces : list (list point)) : list (list (step loc spec_float)) :=
  match pieces with
  | [] => []
  | piece :: pieces' => random_steps v (words c) 0 piece :: random_tasks v words (S c) pieces'
  end.
Definition random_fill (lg : legion) (v : pvec) (words : nat -> nat -> Z) : outcome (launch spec_float) :=
  submit (mk_launch (random_tasks v words 0 (pieces lg v)) [get_requirement lg v WRITE_DISCARD] [] None [] []).
End Canonical.

(** seeded_mersenne_twister: UtilityTasks.cpp:127-139.  [word_bytes]: sizeof(std::mt19937::result_type) (uint_fast32_t);
    [entropy_bytes]: sizeof(std::random_device::result_type). *)
Definition seed_len (word_bytes entropy_bytes : Z) : Z := (624 * word_bytes - 1) / entropy_bytes + 1.
