(** PropsSharding: C33, C34 - the blocking assignment of launch points to shards. *)
From Verif Require Import Base Outcome Sharding.
Local Open Scope Z_scope.
Set Implicit Arguments.

(** smallest integer >= a/b *)
Definition is_ceil_div (a b q : Z) : Prop := b * (q - 1) < a <= b * q.

(** launch sizes and shard counts for which size_t and ShardID do not overflow *)
Definition sizes_ok (n s : Z) : Prop := 1 <= n /\ 1 <= s < 2 ^ 32 /\ n + s < 2 ^ 63.

Lemma ceil_div_unique a b q q' : 0 < b -> is_ceil_div a b q -> is_ceil_div a b q' -> q = q'.
Proof. unfold is_ceil_div. nia. Qed.
Lemma ceil_div_exists a b : 0 < b -> is_ceil_div a b ((a + b - 1) / b).
Proof.
  intros Hb. unfold is_ceil_div. pose proof (Z.mul_div_le (a + b - 1) b Hb). pose proof (Z.mul_succ_div_gt (a + b - 1) b Hb). lia.
Qed.

Lemma shard_value n s i q : sizes_ok n s -> is_ceil_div n s q -> 0 <= i < n ->
  shard i (interval n) s = Ok (i / q) /\ 0 < q /\ 0 <= i / q < s.
Proof.
  intros (Hn & Hs & Hns) Hq Hi. assert (Q: (n + s - 1) / s = q).
  { symmetry. apply (@ceil_div_unique n s); [lia|exact Hq|apply ceil_div_exists; lia]. }
  assert (q0: 0 < q) by (unfold is_ceil_div in Hq; nia).
  assert (R: 0 <= i / q < s).
  { split; [apply Z.div_pos; lia|]. apply Z.div_lt_upper_bound; [lia|]. unfold is_ceil_div in Hq. nia. }
  split; [|auto]. unfold shard, interval, oassert. cbn [ld_dim ld_dense ld_lo ld_volume]. cbn [Z.eqb Pos.eqb].
  destruct (Z.eqb_spec s 0); [lia|].
  assert (P: 2 ^ 63 < 2 ^ 64) by reflexivity.
  assert (U: u64 (u64 (n + s) - 1) = n + s - 1) by (unfold u64; rewrite (Z.mod_small (n + s)) by lia; apply Z.mod_small; lia).
  assert (V: u64 i = i) by (unfold u64; apply Z.mod_small; lia).
  rewrite U, V, Q. destruct (Z.eqb_spec q 0); [lia|]. f_equal. apply Z.mod_small. lia.
Qed.

(** C33: every point of the launch gets a shard in range; the assignment is monotone, so each shard owns a
    contiguous block; shard k owns exactly the points k*ceil(n/s) .. (k+1)*ceil(n/s)-1 of the launch; no shard
    owns more than ceil(n/s) points; no assert fails and nothing is undefined. *)
Theorem C33_blocking_shards : forall n s, sizes_ok n s ->
  exists q, is_ceil_div n s q /\
  (forall i, 0 <= i < n -> exists k, shard i (interval n) s = Ok k /\ 0 <= k < s /\ k * q <= i < (k + 1) * q) /\
  (forall i j a b, 0 <= i <= j -> j < n -> shard i (interval n) s = Ok a -> shard j (interval n) s = Ok b -> a <= b) /\
  (forall k L, NoDup L -> (forall i, In i L -> 0 <= i < n /\ shard i (interval n) s = Ok k) ->
     Z.of_nat (length L) <= q).
Proof.
  intros n s H. assert (Hs: 0 < s) by (destruct H; lia).
  pose proof (ceil_div_exists n Hs) as Hq. set (q := (n + s - 1) / s) in *. exists q. split; [exact Hq|].
  assert (B: forall i, 0 < q -> i / q * q <= i < (i / q + 1) * q).
  { intros i Hq0. pose proof (Z.mul_div_le i q Hq0). pose proof (Z.mul_succ_div_gt i q Hq0). lia. }
  split; [|split].
  - intros i Hi. destruct (shard_value H Hq Hi) as (E & Hq0 & R). exists (i / q). split; [exact E|]. split; [exact R|].
    apply B; exact Hq0.
  - intros i j a b Hij Hj Ea Eb. destruct (shard_value H Hq (i := i) ltac:(lia)) as (E & Hq0 & _).
    destruct (shard_value H Hq (i := j) ltac:(lia)) as (E' & _ & _). rewrite E in Ea. rewrite E' in Eb.
    injection Ea as <-. injection Eb as <-. apply Z.div_le_mono; lia.
  - intros k L ND HL. destruct (Z_le_gt_dec q 0) as [Hq0|Hq0].
    { destruct L as [|i L]; [unfold is_ceil_div in Hq; destruct H; cbn; nia|].
      destruct (HL i (or_introl eq_refl)) as [Hi _]. destruct (shard_value H Hq Hi) as (_ & ? & _). lia. }
    assert (I: incl L (zrange (k * q) (k * q + q - 1))).
    { intros i Hi. destruct (HL i Hi) as [Hr E]. destruct (shard_value H Hq Hr) as (E' & _ & _). rewrite E' in E.
      injection E as <-. apply in_zrange. specialize (B i ltac:(lia)). lia. }
    pose proof (NoDup_incl_length ND I) as Hl. rewrite zrange_length in Hl. lia.
Qed.

(** C34: shard k receives a point exactly when k * ceil(n/s) < n.  Hence all shards are used when s divides n, but
    in general some stay idle although there are at least as many points as shards. *)
Theorem C34_which_shards_are_used : forall n s, sizes_ok n s ->
  exists q, is_ceil_div n s q /\
  (forall k, 0 <= k < s -> ((exists i, 0 <= i < n /\ shard i (interval n) s = Ok k) <-> k * q < n)) /\
  ((s | n) -> forall k, 0 <= k < s -> exists i, 0 <= i < n /\ shard i (interval n) s = Ok k) /\
  (* idle shards are the last ones *)
  (forall k k', 0 <= k <= k' -> k' < s -> (exists i, 0 <= i < n /\ shard i (interval n) s = Ok k') ->
     exists i, 0 <= i < n /\ shard i (interval n) s = Ok k).
Proof.
  intros n s H. assert (Hs: 0 < s) by (destruct H; lia).
  pose proof (ceil_div_exists n Hs) as Hq. set (q := (n + s - 1) / s) in *. exists q. split; [exact Hq|].
  assert (Hq0: 0 < q) by (unfold is_ceil_div in Hq; destruct H; nia).
  assert (X: forall k, 0 <= k < s -> ((exists i, 0 <= i < n /\ shard i (interval n) s = Ok k) <-> k * q < n)).
  { intros k Hk. split.
    - intros (i & Hi & E). destruct (shard_value H Hq Hi) as (E' & _ & _). rewrite E' in E. injection E as <-.
      pose proof (Z.mul_div_le i q Hq0). lia.
    - intros Hkq. assert (Hi: 0 <= k * q < n) by nia. exists (k * q). split; [exact Hi|].
      destruct (shard_value H Hq Hi) as (E' & _ & _). rewrite E'. f_equal. apply Z.div_mul. lia. }
  split; [exact X|]. split.
  - intros [m Hm] k Hk. apply X; [exact Hk|]. assert (q = m) by (apply (@ceil_div_unique n s); [lia|exact Hq|unfold is_ceil_div; nia]).
    subst q. subst m. nia.
  - intros k k' Hk Hk' E. apply X; [lia|]. apply X in E; [|lia]. nia.
Qed.

(** Five points on four shards: the blocks are 0-1, 2-3, 4 and shard 3 gets nothing. *)
Theorem C34_shard_left_idle : sizes_ok 5 4 /\ 4 <= 5 /\ ~ exists i, 0 <= i < 5 /\ shard i (interval 5) 4 = Ok 3.
Proof.
  assert (S: sizes_ok 5 4) by (unfold sizes_ok; lia). split; [exact S|]. split; [lia|].
  destruct (C34_which_shards_are_used S) as (q & Hq & X & _).
  assert (q = 2) by (apply (@ceil_div_unique 5 4); [lia|exact Hq|unfold is_ceil_div; lia]). subst q.
  rewrite (X 3) by lia. lia.
Qed.
Example C33_example : shard 4 (interval 10) 3 = Ok 1 /\ shard 9 (interval 10) 3 = Ok 2 /\ sizes_ok 10 3.
Proof. split; [reflexivity|]. split; [reflexivity|]. unfold sizes_ok. lia. Qed.
(** outside its contract the functor stops the program instead of mis-assigning *)
Example C33_asserts : shard 0 (mk_launch_domain 2 true 0 4) 2 = AssertFail /\ shard 3 (mk_launch_domain 1 true 1 4) 2 = AssertFail.
Proof. split; reflexivity. Qed.
