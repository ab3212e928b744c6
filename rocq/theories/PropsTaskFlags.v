(** PropsTaskFlags: property C51. *)
From Verif Require Import Base TaskIds TaskFlags.
Local Open Scope Z_scope.

(** ** Specification: a flag value stands for a set of flags: the ones written in it. *)
Inductive flag := Leaf | Inner | Idempotent | Replicable.
Inductive written : flag -> Z -> Prop :=
| W_leaf : written Leaf LEAF
| W_inner : written Inner INNER
| W_idem : written Idempotent IDEMPOTENT
| W_repl : written Replicable REPLICABLE
| W_left f a b : written f a -> written f (flags_or a b)
| W_right f a b : written f b -> written f (flags_or a b).
(** the flag expressions a program can build *)
Inductive flag_expr : Z -> Prop :=
| E_leaf : flag_expr LEAF
| E_inner : flag_expr INNER
| E_idem : flag_expr IDEMPOTENT
| E_repl : flag_expr REPLICABLE
| E_or a b : flag_expr a -> flag_expr b -> flag_expr (flags_or a b).
Definition const (f : flag) : Z :=
  match f with Leaf => LEAF | Inner => INNER | Idempotent => IDEMPOTENT | Replicable => REPLICABLE end.
Definition setting (f : flag) (r : registrar) : bool :=
  match f with Leaf => set_leaf r | Inner => set_inner r | Idempotent => set_idempotent r | Replicable => set_replicable r end.

Definition bit (f : flag) : Z := match f with Leaf => 0 | Inner => 1 | Idempotent => 2 | Replicable => 3 end.
Lemma const_bit f : const f = 2 ^ bit f. Proof. destruct f; reflexivity. Qed.
Lemma flags_and_bit a f : flags_and a (const f) = Z.testbit a (bit f).
Proof.
  rewrite const_bit. unfold flags_and. assert (0 <= bit f) by (destruct f; cbn; lia).
  destruct (Z.land a (2 ^ bit f) =? 0) eqn:E; cbn [negb].
  - apply Z.eqb_eq in E. assert (Hb : Z.testbit (Z.land a (2 ^ bit f)) (bit f) = false) by (rewrite E; apply Z.bits_0).
    rewrite Z.land_spec, Z.pow2_bits_true, andb_true_r in Hb by assumption. symmetry; exact Hb.
  - apply Z.eqb_neq in E. destruct (Z.testbit a (bit f)) eqn:Q; [reflexivity|]. exfalso. apply E. apply Z.bits_inj'. intros n Hn.
    rewrite Z.land_spec, Z.bits_0. destruct (Z.eq_dec n (bit f)) as [->|N]; [rewrite Q; reflexivity|].
    rewrite Z.pow2_bits_false by congruence. apply andb_false_r.
Qed.
Lemma or_bit a b f : Z.testbit (flags_or a b) (bit f) = Z.testbit a (bit f) || Z.testbit b (bit f).
Proof.
  unfold flags_or. change 256 with (2 ^ 8). rewrite Z.mod_pow2_bits_low by (destruct f; cbn; lia). apply Z.lor_spec.
Qed.
Lemma expr_range a : flag_expr a -> 0 <= a < 256.
Proof. induction 1; try (cbv; split; congruence). unfold flags_or. apply Z.mod_pos_bound. lia. Qed.
Lemma written_bit f a : flag_expr a -> (written f a <-> Z.testbit a (bit f) = true).
Proof.
  intros He. split.
  - intros H. clear He. induction H; try reflexivity; rewrite or_bit; rewrite IHwritten; cbn; [reflexivity|apply orb_true_r].
  - induction He as [| | | |a b Ha IHa Hb IHb]; intros H; [destruct f; cbn in H; try discriminate; constructor ..|].
    rewrite or_bit in H. apply orb_true_iff in H. destruct H as [H|H]; [apply W_left|apply W_right]; auto.
Qed.

(** ** C51.  For every flag expression: testing with & answers exactly whether the flag was written in it, the union
    loses nothing (the 8-bit result is never truncated), and registration passes exactly the written flags to Legion. *)
Theorem C51_flags_are_sets : forall (e : Z), flag_expr e ->
  0 <= e < 16 /\
  (forall f, flags_and e (const f) = true <-> written f e) /\
  (forall f, setting f (preregister_task e) = true <-> written f e).
Proof.
  intros e He. split.
  { induction He; try (cbv; split; congruence). unfold flags_or.
    assert (Hl : 0 <= Z.lor a b) by (apply Z.lor_nonneg; lia).
    assert (Hu : Z.lor a b < 16).
    { destruct (Z.eq_dec (Z.lor a b) 0) as [->|N]; [lia|]. change 16 with (2 ^ 4). apply Z.log2_lt_pow2; [lia|].
      rewrite Z.log2_lor by lia. apply Z.max_lub_lt.
      - destruct (Z.eq_dec a 0) as [->|Na]; [cbn; lia|]. apply Z.log2_lt_pow2; [lia|]. cbn; lia.
      - destruct (Z.eq_dec b 0) as [->|Na]; [cbn; lia|]. apply Z.log2_lt_pow2; [lia|]. cbn; lia. }
    rewrite Z.mod_small by lia. lia. }
  assert (A : forall f, flags_and e (const f) = true <-> written f e) by (intros f; rewrite flags_and_bit, written_bit by exact He; reflexivity).
  split; [exact A|]. intros f. rewrite <- A. destruct f; reflexivity.
Qed.

(** Testing against several flags at once asks whether they have a flag in common. *)
Theorem C51_test_is_intersection : forall a b, flag_expr a -> flag_expr b ->
  (flags_and a b = true <-> exists f, written f a /\ written f b).
Proof.
  intros a b Ha Hb. pose proof (proj1 (C51_flags_are_sets a Ha)) as Ra. pose proof (proj1 (C51_flags_are_sets b Hb)) as Rb. split.
  - unfold flags_and. intros H. destruct (Z.eq_dec (Z.land a b) 0) as [E|N]; [rewrite E in H; discriminate|].
    assert (P : 0 < Z.land a b) by (assert (0 <= Z.land a b) by (apply Z.land_nonneg; lia); lia).
    pose proof (Z.bit_log2 _ P) as HB. rewrite Z.land_spec in HB. apply andb_true_iff in HB. destruct HB as [B1 B2].
    pose proof (Z.log2_nonneg (Z.land a b)) as L0.
    assert (L4 : Z.log2 (Z.land a b) < 4).
    { pose proof (Z.log2_land a b ltac:(lia) ltac:(lia)) as L. assert (Z.log2 a < 4).
      { destruct (Z.eq_dec a 0) as [->|Na]; [cbn; lia|]. apply Z.log2_lt_pow2; [lia|]. cbn; lia. } lia. }
    remember (Z.log2 (Z.land a b)) as n eqn:En. clear En.
    assert (C : n = bit Leaf \/ n = bit Inner \/ n = bit Idempotent \/ n = bit Replicable) by (cbn; lia).
    destruct C as [-> |[-> |[-> | ->]]]; eexists; split; apply written_bit; eauto.
  - intros [f [Wa Wb]]. apply written_bit in Wa; [|exact Ha]. apply written_bit in Wb; [|exact Hb].
    unfold flags_and. destruct (Z.land a b =? 0) eqn:E; [|reflexivity]. apply Z.eqb_eq in E.
    assert (Q : Z.testbit (Z.land a b) (bit f) = true) by (rewrite Z.land_spec, Wa, Wb; reflexivity).
    rewrite E, Z.bits_0 in Q. discriminate.
Qed.

(** ** Consequence for the library's tasks: every task is registered as a leaf and never as inner; the printing and
    random-filling tasks (the ones with effects outside regions) are the only ones not declared idempotent/replicable. *)
Theorem C51_library_tasks : forall b,
  set_leaf (registrar_of b) = true /\ set_inner (registrar_of b) = false /\
  set_idempotent (registrar_of b) = set_replicable (registrar_of b) /\
  (set_idempotent (registrar_of b) = false <-> In b [PRINT_SCALAR; PRINT_INDEX; COO_PRINT; CSR_PRINT; RANDOM_FILL]).
Proof. intros b. destruct b; cbn; repeat split; intros H; try discriminate H; try tauto; intuition discriminate. Qed.

(** Non-vacuity. *)
Example C51_example : flag_expr pure_leaf /\ written Replicable pure_leaf /\ ~ written Inner pure_leaf.
Proof.
  assert (H : flag_expr pure_leaf) by (unfold pure_leaf; repeat constructor). split; [exact H|].
  split; [apply W_right; constructor|]. rewrite written_bit by exact H. cbn. discriminate.
Qed.
