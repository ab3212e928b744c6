(** Base: generic list and arithmetic facts used everywhere (no model content). *)
From Coq Require Export List ZArith Lia Bool Arith Permutation Sorted.
Export ListNotations.

Set Implicit Arguments.

(** [zrange a b] = the integers a, a+1, ..., b (empty when b < a). *)
Definition zrange (a b : Z) : list Z :=
  map (fun i => a + Z.of_nat i)%Z (seq 0 (Z.to_nat (b - a + 1))).

Lemma in_zrange a b x : In x (zrange a b) <-> (a <= x <= b)%Z.
Proof.
  unfold zrange. rewrite in_map_iff. split.
  - intros [i [Hi Hin]]. apply in_seq in Hin. lia.
  - intros H. exists (Z.to_nat (x - a)). split; [lia|]. apply in_seq. lia.
Qed.

Lemma zrange_length a b : length (zrange a b) = Z.to_nat (b - a + 1).
Proof. unfold zrange. rewrite map_length, seq_length. reflexivity. Qed.

Lemma zrange_nil a b : (b < a)%Z -> zrange a b = [].
Proof. intros H. unfold zrange. replace (Z.to_nat (b - a + 1)) with 0 by lia. reflexivity. Qed.

Lemma zrange_cons a b : (a <= b)%Z -> zrange a b = a :: zrange (a + 1) b.
Proof.
  intros H. unfold zrange.
  replace (Z.to_nat (b - a + 1)) with (S (Z.to_nat (b - (a + 1) + 1))) by lia.
  cbn [seq map]. f_equal; [lia|].
  rewrite <- seq_shift, map_map. apply map_ext. intros i. lia.
Qed.

Lemma zrange_app a b c : (a <= b + 1)%Z -> (b <= c)%Z ->
  zrange a c = zrange a b ++ zrange (b + 1) c.
Proof.
  intros H1 H2. unfold zrange.
  replace (Z.to_nat (c - a + 1)) with (Z.to_nat (b - a + 1) + Z.to_nat (c - (b + 1) + 1)) by lia.
  rewrite seq_app, map_app. f_equal. simpl.
  rewrite <- (Nat.add_0_r (Z.to_nat (b - a + 1))) at 1.
  generalize (Z.to_nat (c - (b+1) + 1)) as n. intros n.
  assert (E: forall k m, map (fun i => (a + Z.of_nat i)%Z) (seq (Z.to_nat (b - a + 1) + k) m)
             = map (fun i => (b + 1 + Z.of_nat i)%Z) (seq k m)).
  { intros k m. revert k. induction m as [|m IH]; intros k; simpl; [reflexivity|].
    f_equal; [lia|]. replace (S (Z.to_nat (b - a + 1) + k)) with (Z.to_nat (b - a + 1) + S k) by lia.
    apply IH. }
  apply E.
Qed.

Lemma NoDup_zrange a b : NoDup (zrange a b).
Proof.
  unfold zrange. apply FinFun.Injective_map_NoDup; [|apply seq_NoDup].
  intros x y H. lia.
Qed.

Lemma zrange_sorted a b : StronglySorted Z.lt (zrange a b).
Proof.
  unfold zrange. generalize (Z.to_nat (b - a + 1)) as n. intros n.
  generalize 0 as k. induction n as [|n IH]; intros k; simpl; constructor.
  - apply IH.
  - apply Forall_forall. intros x Hx. apply in_map_iff in Hx. destruct Hx as [i [Hi Hin]].
    apply in_seq in Hin. lia.
Qed.

Lemma nth_zrange a b i d : i < Z.to_nat (b - a + 1) -> nth i (zrange a b) d = (a + Z.of_nat i)%Z.
Proof.
  intros H. unfold zrange.
  transitivity (nth i (map (fun i => (a + Z.of_nat i)%Z) (seq 0 (Z.to_nat (b - a + 1)))) ((fun i => (a + Z.of_nat i)%Z) 0)).
  - apply nth_indep. rewrite map_length, seq_length. exact H.
  - rewrite (map_nth (fun i => (a + Z.of_nat i)%Z)). rewrite seq_nth by lia. reflexivity.
Qed.

(** flat_map facts *)
Lemma flat_map_app_f A B (f : A -> list B) l1 l2 :
  flat_map f (l1 ++ l2) = flat_map f l1 ++ flat_map f l2.
Proof. induction l1 as [|a l1 IH]; simpl; [reflexivity|]. rewrite IH, app_assoc. reflexivity. Qed.

Lemma flat_map_ext_in A B (f g : A -> list B) l :
  (forall x, In x l -> f x = g x) -> flat_map f l = flat_map g l.
Proof.
  induction l as [|a l IH]; intros H; simpl; [reflexivity|].
  rewrite (H a) by (left; reflexivity). rewrite IH; [reflexivity|].
  intros x Hx. apply H. right. exact Hx.
Qed.

Lemma flat_map_nil A B (f : A -> list B) l : (forall x, In x l -> f x = []) -> flat_map f l = [].
Proof.
  induction l as [|a l IH]; intros H; simpl; [reflexivity|].
  rewrite (H a) by (left; reflexivity). simpl. apply IH. intros x Hx. apply H. right; exact Hx.
Qed.

Lemma flat_map_length_sum A B (f : A -> list B) l :
  length (flat_map f l) = fold_right (fun x acc => length (f x) + acc) 0 l.
Proof. induction l as [|a l IH]; simpl; [reflexivity|]. rewrite app_length, IH. reflexivity. Qed.

Lemma map_flat_map A B C (g : B -> C) (f : A -> list B) l :
  map g (flat_map f l) = flat_map (fun x => map g (f x)) l.
Proof. induction l as [|a l IH]; simpl; [reflexivity|]. rewrite map_app, IH. reflexivity. Qed.

Lemma flat_map_map A B C (g : A -> B) (f : B -> list C) l :
  flat_map f (map g l) = flat_map (fun x => f (g x)) l.
Proof. induction l as [|a l IH]; simpl; [reflexivity|]. rewrite IH. reflexivity. Qed.

Lemma flat_map_flat_map A B C (f : A -> list B) (g : B -> list C) l :
  flat_map g (flat_map f l) = flat_map (fun x => flat_map g (f x)) l.
Proof. induction l as [|a l IH]; simpl; [reflexivity|]. rewrite flat_map_app_f, IH. reflexivity. Qed.

Lemma filter_flat_map A B (q : B -> bool) (f : A -> list B) l :
  filter q (flat_map f l) = flat_map (fun x => filter q (f x)) l.
Proof. induction l as [|a l IH]; simpl; [reflexivity|]. rewrite filter_app, IH. reflexivity. Qed.

Lemma filter_map_comm A B (f : A -> B) (q : B -> bool) l :
  filter q (map f l) = map f (filter (fun x => q (f x)) l).
Proof. induction l as [|a l IH]; simpl; [reflexivity|]. rewrite IH. destruct (q (f a)); reflexivity. Qed.

Lemma filter_ext_in2 A (f g : A -> bool) l :
  (forall x, In x l -> f x = g x) -> filter f l = filter g l.
Proof.
  induction l as [|a l IH]; intros H; simpl; [reflexivity|].
  rewrite (H a) by (left; reflexivity). rewrite IH; [reflexivity|].
  intros x Hx. apply H. right. exact Hx.
Qed.

Lemma filter_none A (f : A -> bool) l : (forall x, In x l -> f x = false) -> filter f l = [].
Proof.
  induction l as [|a l IH]; intros H; simpl; [reflexivity|].
  rewrite (H a) by (left; reflexivity). apply IH. intros x Hx; apply H; right; exact Hx.
Qed.

Lemma filter_all A (f : A -> bool) l : (forall x, In x l -> f x = true) -> filter f l = l.
Proof.
  induction l as [|a l IH]; intros H; simpl; [reflexivity|].
  rewrite (H a) by (left; reflexivity). f_equal. apply IH. intros x Hx; apply H; right; exact Hx.
Qed.

Lemma NoDup_app_intro A (l1 l2 : list A) :
  NoDup l1 -> NoDup l2 -> (forall x, In x l1 -> ~ In x l2) -> NoDup (l1 ++ l2).
Proof.
  induction l1 as [|a l1 IH]; intros H1 H2 Hd; simpl; [exact H2|].
  inversion H1; subst. constructor.
  - rewrite in_app_iff. intros [H|H]; [contradiction|]. apply (Hd a); [left; reflexivity|exact H].
  - apply IH; [assumption|assumption|]. intros x Hx. apply Hd. right; exact Hx.
Qed.

Lemma NoDup_flat_map A B (f : A -> list B) l :
  NoDup l -> (forall x, In x l -> NoDup (f x)) ->
  (forall x y z, In x l -> In y l -> In z (f x) -> In z (f y) -> x = y) ->
  NoDup (flat_map f l).
Proof.
  induction l as [|a l IH]; intros Hl Hf Hd; simpl; [constructor|].
  inversion Hl; subst. apply NoDup_app_intro.
  - apply Hf. left; reflexivity.
  - apply IH; [assumption| |].
    + intros x Hx. apply Hf. right; exact Hx.
    + intros x y z Hx Hy Hzx Hzy. apply (Hd x y z); [right; exact Hx|right; exact Hy|exact Hzx|exact Hzy].
  - intros z Hz Hz2. apply in_flat_map in Hz2. destruct Hz2 as [y [Hy Hzy]].
    assert (a = y) by (apply (Hd a y z); [left; reflexivity|right; exact Hy|exact Hz|exact Hzy]).
    subst y. contradiction.
Qed.

(** strongly sorted lists *)
Lemma StronglySorted_app A (R : A -> A -> Prop) l1 l2 :
  StronglySorted R l1 -> StronglySorted R l2 ->
  (forall x y, In x l1 -> In y l2 -> R x y) -> StronglySorted R (l1 ++ l2).
Proof.
  induction l1 as [|a l1 IH]; intros H1 H2 Hx; simpl; [exact H2|].
  inversion H1; subst. constructor.
  - apply IH; [assumption|assumption|]. intros x y Hi Hj. apply Hx; [right; exact Hi|exact Hj].
  - apply Forall_app. split; [assumption|]. apply Forall_forall. intros y Hy. apply Hx; [left; reflexivity|exact Hy].
Qed.

Lemma StronglySorted_flat_map A B (R : A -> A -> Prop) (Q : B -> B -> Prop) (f : A -> list B) l :
  StronglySorted R l -> (forall x, In x l -> StronglySorted Q (f x)) ->
  (forall x y b c, In x l -> In y l -> R x y -> In b (f x) -> In c (f y) -> Q b c) ->
  StronglySorted Q (flat_map f l).
Proof.
  induction l as [|a l IH]; intros Hl Hf Hx; simpl; [constructor|].
  inversion Hl; subst. apply StronglySorted_app.
  - apply Hf. left; reflexivity.
  - apply IH; [assumption| |].
    + intros x Hin. apply Hf. right; exact Hin.
    + intros x y b c Hi Hj. apply Hx; right; assumption.
  - intros b c Hb Hc. apply in_flat_map in Hc. destruct Hc as [y [Hy Hc]].
    apply (Hx a y b c); [left; reflexivity|right; exact Hy| |exact Hb|exact Hc].
    rewrite Forall_forall in *. auto.
Qed.

Lemma StronglySorted_map A B (R : A -> A -> Prop) (Q : B -> B -> Prop) (f : A -> B) l :
  StronglySorted R l -> (forall x y, In x l -> In y l -> R x y -> Q (f x) (f y)) -> StronglySorted Q (map f l).
Proof.
  induction l as [|a l IH]; intros H Hf; simpl; [constructor|].
  inversion H; subst. constructor.
  - apply IH; [assumption|]. intros x y Hx Hy. apply Hf; right; assumption.
  - apply Forall_forall. intros y Hy. apply in_map_iff in Hy. destruct Hy as [x [Hx Hin]]. subst y.
    apply Hf; [left; reflexivity|right; exact Hin|]. rewrite Forall_forall in *. auto.
Qed.

Lemma StronglySorted_impl A (R Q : A -> A -> Prop) l :
  (forall x y, In x l -> In y l -> R x y -> Q x y) -> StronglySorted R l -> StronglySorted Q l.
Proof. intros H Hs. rewrite <- (map_id l). eapply StronglySorted_map; [exact Hs|exact H]. Qed.

Lemma StronglySorted_filter A (R : A -> A -> Prop) (f : A -> bool) l :
  StronglySorted R l -> StronglySorted R (filter f l).
Proof.
  induction 1 as [|a l Hs IH Hf]; simpl; [constructor|]. destruct (f a); [|exact IH].
  constructor; [exact IH|]. rewrite Forall_forall in *. intros x Hx. apply filter_In in Hx. apply Hf. tauto.
Qed.

Lemma StronglySorted_nth A (R : A -> A -> Prop) l d i j :
  StronglySorted R l -> i < j -> j < length l -> R (nth i l d) (nth j l d).
Proof.
  intros H. revert i j. induction H as [|a l Hs IH Hf]; intros i j Hij Hj; simpl in *; [lia|].
  destruct i, j; try lia.
  - rewrite Forall_forall in Hf. apply Hf. apply nth_In. lia.
  - apply IH; lia.
Qed.

(** Two strongly sorted permutations of each other are equal, for an asymmetric-up-to-eq relation. *)
Lemma StronglySorted_perm_unique A (R : A -> A -> Prop) l1 l2 :
  (forall x y, In x l1 -> In y l1 -> R x y -> R y x -> x = y) ->
  StronglySorted R l1 -> StronglySorted R l2 -> Permutation l1 l2 -> l1 = l2.
Proof.
  revert l2. induction l1 as [|a l1 IH]; intros l2 Ha H1 H2 Hp.
  - apply Permutation_nil in Hp. subst. reflexivity.
  - destruct l2 as [|b l2]; [apply Permutation_sym, Permutation_nil in Hp; discriminate|].
    inversion H1; subst. inversion H2; subst.
    assert (Hab : a = b).
    { assert (Hina : In a (b :: l2)) by (eapply Permutation_in; [exact Hp|left; reflexivity]).
      assert (Hinb : In b (a :: l1)) by (eapply Permutation_in; [apply Permutation_sym; exact Hp|left; reflexivity]).
      destruct Hina as [Hina|Hina]; [congruence|].
      destruct Hinb as [Hinb|Hinb]; [congruence|].
      rewrite Forall_forall in *.
      apply Ha; [left; reflexivity|right; assumption| |]; auto. }
    subst b. f_equal. apply IH; [|assumption|assumption|].
    + intros x y Hx Hy. apply Ha; right; assumption.
    + eapply Permutation_cons_inv; exact Hp.
Qed.

Lemma fold_left_ext A B (f g : A -> B -> A) l a :
  (forall x y, In y l -> f x y = g x y) -> fold_left f l a = fold_left g l a.
Proof.
  revert a. induction l as [|b l IH]; intros a H; simpl; [reflexivity|].
  rewrite (H a b) by (left; reflexivity). apply IH. intros x y Hy. apply H. right; exact Hy.
Qed.

Lemma nth_error_map_some A B (f : A -> B) l i :
  nth_error (map f l) i = option_map f (nth_error l i).
Proof. revert i. induction l as [|a l IH]; intros [|i]; simpl; auto. Qed.

Lemma list_eq_nth_error A (l1 l2 : list A) : (forall i, nth_error l1 i = nth_error l2 i) -> l1 = l2.
Proof.
  revert l2. induction l1 as [|a l1 IH]; intros [|b l2] H.
  - reflexivity.
  - specialize (H 0). discriminate.
  - specialize (H 0). discriminate.
  - pose proof (H 0) as H0. simpl in H0. injection H0 as ->. f_equal. apply IH. intros i. exact (H (S i)).
Qed.

Lemma Permutation_flat_map_ext A B (f : A -> list B) l1 l2 :
  Permutation l1 l2 -> Permutation (flat_map f l1) (flat_map f l2).
Proof. intros H. apply Permutation_flat_map. exact H. Qed.

Lemma Permutation_filter2 A (f : A -> bool) l1 l2 :
  Permutation l1 l2 -> Permutation (filter f l1) (filter f l2).
Proof.
  induction 1 as [|x l l' H IH|x y l|l l' l'' H1 IH1 H2 IH2]; simpl.
  - constructor.
  - destruct (f x); [constructor; exact IH|exact IH].
  - destruct (f x), (f y); try constructor; apply Permutation_refl.
  - eapply Permutation_trans; eassumption.
Qed.
