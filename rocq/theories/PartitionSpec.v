(** PartitionSpec: vocabulary for Legion index partitions (a list of sub-sets, one per colour). *)
From Verif Require Import Base.
Set Implicit Arguments.

(** every element of S is in some piece (Legion: index partition is complete) *)
Definition complete_partition {A} (S : A -> Prop) (pieces : list (A -> bool)) : Prop :=
  forall a, S a -> exists m, In m pieces /\ m a = true.
(** no element is in two pieces (Legion: index partition is disjoint) *)
Definition disjoint_pieces {A} (pieces : list (A -> bool)) : Prop :=
  forall i j mi mj a, nth_error pieces i = Some mi -> nth_error pieces j = Some mj ->
    mi a = true -> mj a = true -> i = j.
(** every piece is a sub-set of S *)
Definition pieces_within {A} (S : A -> Prop) (pieces : list (A -> bool)) : Prop :=
  forall m a, In m pieces -> m a = true -> S a.

Lemma nth_error_Forall2 A B (R : A -> B -> Prop) l1 l2 : Forall2 R l1 l2 ->
  forall i a, nth_error l1 i = Some a -> exists b, nth_error l2 i = Some b /\ R a b.
Proof.
  intros H. induction H as [|x y l1 l2 Hxy H IH]; intros [|i] a Hi; simpl in *; try discriminate.
  - injection Hi as <-. exists y. auto.
  - apply IH. exact Hi.
Qed.
Lemma nth_error_Forall2_r A B (R : A -> B -> Prop) l1 l2 : Forall2 R l1 l2 ->
  forall i b, nth_error l2 i = Some b -> exists a, nth_error l1 i = Some a /\ R a b.
Proof.
  intros H. induction H as [|x y l1 l2 Hxy H IH]; intros [|i] a Hi; simpl in *; try discriminate.
  - injection Hi as <-. exists x. auto.
  - apply IH. exact Hi.
Qed.
Lemma Forall2_nth_intro A B (R : A -> B -> Prop) l1 l2 : length l1 = length l2 ->
  (forall i a b, nth_error l1 i = Some a -> nth_error l2 i = Some b -> R a b) -> Forall2 R l1 l2.
Proof.
  revert l2. induction l1 as [|a l1 IH]; intros [|b l2] Hl H; simpl in *; try discriminate; constructor.
  - apply (H 0); reflexivity.
  - apply IH; [congruence|]. intros i x y Hx Hy. apply (H (S i)); assumption.
Qed.
