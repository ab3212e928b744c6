(** Sharding: BlockingShardingFunctor::shard (/repo/src/LegionSolversMapper.cpp:140-151). *)
From Verif Require Import Base Outcome.
Local Open Scope Z_scope.

(** The launch domain as the functor sees it: its dimension, whether it is dense, its lower bound and volume. *)
Record launch_domain := mk_launch_domain { ld_dim : Z; ld_dense : bool; ld_lo : Z; ld_volume : Z }.

(** shard: the three asserts, then [points_per_shard = (volume + total_shards - 1) / total_shards] in size_t
    (64-bit, wrapping), then [point[0] / points_per_shard] (a signed coordinate divided by a size_t, i.e. in
    size_t), cast to the 32-bit ShardID.  Division by zero is undefined behaviour. *)
Definition u64 (x : Z) : Z := x mod 2 ^ 64.
Definition shard (point0 : Z) (d : launch_domain) (total_shards : Z) : outcome Z :=
  oassert (ld_dim d =? 1)
  (oassert (ld_dense d)
  (oassert (ld_lo d =? 0)
  (if total_shards =? 0 then UB
   else
     let points_per_shard := u64 (u64 (ld_volume d + total_shards) - 1) / total_shards in
     if points_per_shard =? 0 then UB
     else Ok ((u64 point0 / points_per_shard) mod 2 ^ 32)))).

(** The launch domains LegionSolvers uses: the dense 1-D interval 0 .. n-1. *)
Definition interval (n : Z) : launch_domain := mk_launch_domain 1 true 0 n.
