(** IndexFacts: proofs about Index.v against IndexSpec.v. *)
From Verif Require Import Base Index IndexSpec.
Local Open Scope Z_scope.

(** ** contains *)
Lemma contains_aux_iff l h p :
  contains_aux l h p = true <->
  length p = length l /\ length l = length h /\
  forall i, (i < length p)%nat -> nth i l 0 <= nth i p 0 <= nth i h 0.
Proof.
  revert h p. induction l as [|l0 l IH]; intros [|h0 h] [|p0 p]; simpl;
    try (split; [discriminate | intros (H1 & H2 & H3); discriminate]).
  - split; [intros _; repeat split; intros; lia | reflexivity].
  - rewrite !andb_true_iff, IH, !Z.leb_le. split.
    + intros [[H1 H2] (H3 & H4 & H5)]. split; [lia|]. split; [lia|].
      intros [|i] Hi; [lia|]. apply H5. lia.
    + intros (H1 & H2 & H3). split.
      * pose proof (H3 0%nat ltac:(lia)) as H0. simpl in H0. lia.
      * split; [lia|]. split; [lia|]. intros i Hi. apply (H3 (S i)). lia.
Qed.

Lemma contains_iff b p : contains b p = true <-> in_box b p.
Proof. apply contains_aux_iff. Qed.

Lemma contains_aux_length l h p : contains_aux l h p = true -> length p = length l /\ length l = length h.
Proof. intros H. apply contains_aux_iff in H. tauto. Qed.

(** ** box_points *)
Lemma in_box_points_aux l h p : length l = length h ->
  In p (box_points_aux l h) <-> contains_aux l h p = true.
Proof.
  revert h p. induction l as [|l0 l IH]; intros [|h0 h] p Hlen; simpl in *; try discriminate.
  - destruct p; split; intros H; try reflexivity; try discriminate; auto.
    destruct H as [H|[]]. discriminate.
  - rewrite in_flat_map. split.
    + intros [x [Hx Hp]]. apply in_zrange in Hx. apply in_map_iff in Hp. destruct Hp as [q [<- Hq]].
      apply IH in Hq; [|lia]. rewrite Hq. rewrite !(proj2 (Z.leb_le _ _)); [reflexivity|lia|lia].
    + destruct p as [|p0 p]; [discriminate|]. intros H. apply andb_prop in H. destruct H as [H1 H2].
      apply andb_prop in H1. exists p0. rewrite in_zrange. split; [lia|].
      apply in_map. apply IH; [lia|exact H2].
Qed.

Lemma in_box_points_rm b p : wf_box b -> In p (box_points_rm b) <-> in_box b p.
Proof. intros H. unfold box_points_rm. rewrite in_box_points_aux by exact H. apply contains_iff. Qed.

Lemma contains_aux_rev l h p : contains_aux (rev l) (rev h) (rev p) = contains_aux l h p.
Proof.
  assert (G : forall l h p, contains_aux l h p = true -> contains_aux (rev l) (rev h) (rev p) = true).
  { clear. intros l h p. rewrite !contains_aux_iff, !rev_length. intros (H1 & H2 & H3). split; [lia|]. split; [lia|].
    intros i Hi. rewrite !rev_nth by lia. replace (length h) with (length p) by lia.
    replace (length l) with (length p) by lia. apply H3. lia. }
  destruct (contains_aux l h p) eqn:E; [apply G; exact E|].
  destruct (contains_aux (rev l) (rev h) (rev p)) eqn:E2; [|reflexivity].
  apply G in E2. rewrite !rev_involutive in E2. congruence.
Qed.

Lemma in_box_points_cm b p : wf_box b -> In p (box_points_cm b) <-> in_box b p.
Proof.
  intros H. unfold box_points_cm. rewrite in_map_iff. rewrite <- contains_iff. unfold contains. split.
  - intros [q [<- Hq]]. apply in_box_points_aux in Hq; [|rewrite !rev_length; exact H].
    rewrite <- contains_aux_rev, rev_involutive. exact Hq.
  - intros Hp. exists (rev p). split; [apply rev_involutive|].
    apply in_box_points_aux; [rewrite !rev_length; exact H|]. rewrite contains_aux_rev. exact Hp.
Qed.

Lemma in_box_points o b p : wf_box b -> In p (box_points o b) <-> in_box b p.
Proof. destruct o; [apply in_box_points_rm | apply in_box_points_cm]. Qed.

Lemma NoDup_box_points_aux l h : NoDup (box_points_aux l h).
Proof.
  revert h. induction l as [|l0 l IH]; intros [|h0 h]; simpl; try (constructor; [simpl; tauto|constructor]).
  apply NoDup_flat_map.
  - apply NoDup_zrange.
  - intros x _. apply FinFun.Injective_map_NoDup; [|apply IH]. intros u v E. congruence.
  - intros x y z _ _ Hx Hy. apply in_map_iff in Hx. apply in_map_iff in Hy.
    destruct Hx as [u [<- _]]. destruct Hy as [v [E _]]. congruence.
Qed.

Lemma NoDup_box_points o b : NoDup (box_points o b).
Proof.
  destruct o; simpl.
  - apply NoDup_box_points_aux.
  - apply FinFun.Injective_map_NoDup; [|apply NoDup_box_points_aux].
    intros u v E. rewrite <- (rev_involutive u), E, rev_involutive. reflexivity.
Qed.

(** ** volume *)
Lemma volume_aux_nonneg l h : 0 <= volume_aux l h.
Proof.
  revert h. induction l as [|l0 l IH]; intros [|h0 h]; simpl; try lia.
  destruct (h0 <? l0) eqn:E; [lia|]. apply Z.ltb_ge in E. specialize (IH h). nia.
Qed.

Lemma flat_map_const_length A B (f : A -> list B) l n :
  (forall x, In x l -> length (f x) = n) -> length (flat_map f l) = (length l * n)%nat.
Proof.
  induction l as [|a l IH]; intros H; simpl; [reflexivity|].
  rewrite app_length, (H a) by (left; reflexivity). rewrite IH; [reflexivity|].
  intros x Hx. apply H. right; exact Hx.
Qed.

Lemma box_points_aux_length l h : length l = length h ->
  Z.of_nat (length (box_points_aux l h)) = volume_aux l h.
Proof.
  revert h. induction l as [|l0 l IH]; intros [|h0 h] Hlen; simpl in *; try discriminate; [reflexivity|].
  rewrite flat_map_const_length with (n := length (box_points_aux l h)).
  - rewrite zrange_length. rewrite Nat2Z.inj_mul, IH by lia. destruct (h0 <? l0) eqn:E.
    + apply Z.ltb_lt in E. replace (Z.to_nat (h0 - l0 + 1)) with 0%nat by lia. reflexivity.
    + apply Z.ltb_ge in E. rewrite Z2Nat.id by lia. reflexivity.
  - intros x _. apply map_length.
Qed.

Lemma volume_aux_snoc l h l0 h0 : length l = length h ->
  volume_aux (l ++ [l0]) (h ++ [h0]) = volume_aux l h * (if h0 <? l0 then 0 else h0 - l0 + 1).
Proof.
  revert h. induction l as [|a l IH]; intros [|b h] Hlen; simpl in Hlen; try discriminate; cbn [volume_aux app].
  - destruct (h0 <? l0); ring.
  - rewrite IH by lia. destruct (b <? a); ring.
Qed.

Lemma volume_aux_rev l h : length l = length h -> volume_aux (rev l) (rev h) = volume_aux l h.
Proof.
  revert h. induction l as [|a l IH]; intros [|b h] Hlen; simpl in *; try discriminate; [reflexivity|].
  rewrite volume_aux_snoc by (rewrite !rev_length; lia). rewrite IH by lia. destruct (b <? a); ring.
Qed.

Lemma box_points_length o b : wf_box b -> Z.of_nat (length (box_points o b)) = volume b.
Proof.
  intros H. destruct o; simpl; unfold box_points_rm, box_points_cm, volume.
  - apply box_points_aux_length. exact H.
  - rewrite map_length. rewrite box_points_aux_length by (rewrite !rev_length; exact H).
    apply volume_aux_rev. exact H.
Qed.

Fixpoint nonempty_aux (l h : point) : Prop :=
  match l, h with
  | l0 :: l', h0 :: h' => l0 <= h0 /\ nonempty_aux l' h'
  | [], [] => True
  | _, _ => False
  end.
Lemma nonempty_aux_iff l h : nonempty_aux l h <->
  length l = length h /\ forall i, (i < length l)%nat -> nth i l 0 <= nth i h 0.
Proof.
  revert h. induction l as [|l0 l IH]; intros [|h0 h]; simpl.
  - split; [intros _; split; [reflexivity|intros; lia]|tauto].
  - split; [tauto|intros [H _]; discriminate].
  - split; [tauto|intros [H _]; discriminate].
  - rewrite IH. split.
    + intros [H1 [H2 H3]]. split; [lia|]. intros [|i] Hi; [exact H1|]. apply H3. lia.
    + intros [H1 H2]. split; [apply (H2 0%nat); lia|]. split; [lia|]. intros i Hi. apply (H2 (S i)). lia.
Qed.
Lemma nonempty_box_aux b : nonempty_box b <-> nonempty_aux (lo b) (hi b).
Proof. unfold nonempty_box. rewrite nonempty_aux_iff. tauto. Qed.

Lemma nonempty_volume l h : nonempty_aux l h -> 0 < volume_aux l h.
Proof.
  revert h. induction l as [|l0 l IH]; intros [|h0 h]; simpl; try tauto; try lia.
  intros [H1 H2]. rewrite (proj2 (Z.ltb_ge _ _)) by lia. specialize (IH h H2). nia.
Qed.

Lemma volume_pos_nonempty l h : length l = length h -> 0 < volume_aux l h -> nonempty_aux l h.
Proof.
  revert h. induction l as [|l0 l IH]; intros [|h0 h] Hlen; simpl in *; try discriminate; try tauto.
  destruct (h0 <? l0) eqn:E; [lia|]. apply Z.ltb_ge in E. intros H. split; [exact E|]. apply IH; [lia|].
  pose proof (volume_aux_nonneg l h). nia.
Qed.

Lemma nonempty_contains_lo l h : nonempty_aux l h -> contains_aux l h l = true.
Proof.
  revert h. induction l as [|l0 l IH]; intros [|h0 h]; simpl; try tauto.
  intros [H1 H2]. rewrite IH by exact H2. rewrite !(proj2 (Z.leb_le _ _)) by lia. reflexivity.
Qed.

Lemma contains_nonempty l h p : contains_aux l h p = true -> nonempty_aux l h.
Proof.
  revert h p. induction l as [|l0 l IH]; intros [|h0 h] [|p0 p]; simpl; try discriminate; auto.
  intros H. apply andb_prop in H. destruct H as [H1 H2]. split; [lia|eapply IH; exact H2].
Qed.

(** ** order *)
Lemma compare_row_major_lex p q : length p = length q -> compare_row_major p q = true <-> lex_lt p q.
Proof.
  unfold lex_lt. revert q. induction p as [|x p IH]; intros [|y q] Hlen; simpl in *; try discriminate.
  - split; [discriminate|]. intros [i (H & _)]. lia.
  - destruct (x <? y) eqn:E1.
    + split; [|reflexivity]. intros _. exists 0%nat. apply Z.ltb_lt in E1. simpl.
      repeat split; try lia.
    + apply Z.ltb_ge in E1. destruct (x >? y) eqn:E2.
      * split; [discriminate|]. intros [[|i] (H1 & H2 & H3 & H4)]; simpl in *; [lia|].
        specialize (H4 0%nat ltac:(lia)). simpl in H4. lia.
      * assert (x = y) by lia. subst y. rewrite IH by lia. split.
        -- intros [i (H1 & H2 & H3 & H4)]. exists (S i). simpl. repeat split; try lia.
           intros [|j] Hj; [reflexivity|]. apply H4. lia.
        -- intros [[|i] (H1 & H2 & H3 & H4)]; simpl in *; [lia|]. exists i. repeat split; try lia.
           intros j Hj. apply (H4 (S j)). lia.
Qed.

Lemma lex_colex_rev p q : length p = length q -> lex_lt (rev p) (rev q) <-> colex_lt p q.
Proof.
  intros Hlen. unfold lex_lt, colex_lt. rewrite !rev_length.
  assert (R : forall i, (i < length p)%nat ->
     nth i (rev p) 0 = nth (length p - S i) p 0 /\ nth i (rev q) 0 = nth (length p - S i) q 0).
  { intros i Hi. split; [apply rev_nth; exact Hi|]. rewrite rev_nth by lia. rewrite Hlen. reflexivity. }
  split.
  - intros [i (H1 & H2 & H3 & H4)]. exists (length p - S i)%nat.
    destruct (R i H1) as [Ra Rb]. rewrite Ra, Rb in H3. split; [lia|]. split; [lia|]. split; [exact H3|].
    intros j Hj. specialize (H4 (length p - S j)%nat ltac:(lia)).
    destruct (R (length p - S j)%nat ltac:(lia)) as [Rc Rd]. rewrite Rc, Rd in H4.
    replace (length p - S (length p - S j))%nat with j in H4 by lia. exact H4.
  - intros [i (H1 & H2 & H3 & H4)]. exists (length p - S i)%nat.
    destruct (R (length p - S i)%nat ltac:(lia)) as [Ra Rb]. rewrite Ra, Rb.
    replace (length p - S (length p - S i))%nat with i by lia. split; [lia|]. split; [lia|]. split; [exact H3|].
    intros j Hj. destruct (R j ltac:(lia)) as [Rc Rd]. rewrite Rc, Rd. apply H4. lia.
Qed.

Lemma compare_column_major_colex p q : length p = length q -> compare_column_major p q = true <-> colex_lt p q.
Proof.
  intros H. unfold compare_column_major. rewrite compare_row_major_lex by (rewrite !rev_length; exact H).
  apply lex_colex_rev. exact H.
Qed.

Lemma compare_order_lt o p q : length p = length q -> compare o p q = true <-> order_lt o p q.
Proof. destruct o; [apply compare_row_major_lex | apply compare_column_major_colex]. Qed.

Lemma compare_row_major_irrefl p : compare_row_major p p = false.
Proof.
  induction p as [|x p IH]; simpl; [reflexivity|].
  rewrite Z.ltb_irrefl. rewrite Z.gtb_ltb, Z.ltb_irrefl. exact IH.
Qed.

Lemma compare_row_major_trans p q r : length p = length q -> length q = length r ->
  compare_row_major p q = true -> compare_row_major q r = true -> compare_row_major p r = true.
Proof.
  revert q r. induction p as [|x p IH]; intros [|y q] [|z r] H1 H2; simpl in *; try discriminate; auto.
  rewrite !Z.gtb_ltb. intros Ha Hb.
  destruct (Z.lt_trichotomy x y) as [A|[A|A]].
  - destruct (Z.lt_trichotomy y z) as [B|[B|B]].
    + rewrite (proj2 (Z.ltb_lt x z)) by lia. reflexivity.
    + rewrite (proj2 (Z.ltb_lt x z)) by lia. reflexivity.
    + rewrite (proj2 (Z.ltb_ge y z)), (proj2 (Z.ltb_lt z y)) in Hb by lia. discriminate.
  - subst y. destruct (Z.lt_trichotomy x z) as [B|[B|B]].
    + rewrite (proj2 (Z.ltb_lt x z)) by lia. reflexivity.
    + subst z. rewrite Z.ltb_irrefl in *. apply (IH q r); [lia|lia|exact Ha|exact Hb].
    + rewrite (proj2 (Z.ltb_ge x z)), (proj2 (Z.ltb_lt z x)) in Hb by lia. discriminate.
  - rewrite (proj2 (Z.ltb_ge x y)), (proj2 (Z.ltb_lt y x)) in Ha by lia. discriminate.
Qed.

Lemma compare_row_major_total p q : length p = length q ->
  compare_row_major p q = false -> compare_row_major q p = false -> p = q.
Proof.
  revert q. induction p as [|x p IH]; intros [|y q] H; simpl in *; try discriminate; auto.
  rewrite !Z.gtb_ltb.
  destruct (Z.ltb_spec x y) as [A|A]; [discriminate|]. destruct (Z.ltb_spec y x) as [B|B]; [discriminate|].
  intros H1 H2. f_equal; [lia|]. apply IH; [lia|exact H1|exact H2].
Qed.

Lemma compare_irrefl o p : compare o p p = false.
Proof. destruct o; apply compare_row_major_irrefl. Qed.
Lemma compare_trans o p q r : length p = length q -> length q = length r ->
  compare o p q = true -> compare o q r = true -> compare o p r = true.
Proof.
  destruct o; simpl; [apply compare_row_major_trans|].
  unfold compare_column_major. intros H1 H2. apply compare_row_major_trans; rewrite !rev_length; assumption.
Qed.
Lemma compare_total o p q : length p = length q ->
  compare o p q = false -> compare o q p = false -> p = q.
Proof.
  destruct o; simpl; [apply compare_row_major_total|].
  unfold compare_column_major. intros H H1 H2.
  rewrite <- (rev_involutive p), <- (rev_involutive q). f_equal.
  apply compare_row_major_total; [rewrite !rev_length|..]; assumption.
Qed.
Lemma compare_asym o p q : length p = length q -> compare o p q = true -> compare o q p = false.
Proof.
  intros Hl H. destruct (compare o q p) eqn:E; [|reflexivity].
  pose proof (compare_trans o p q p Hl (eq_sym Hl) H E) as C. rewrite compare_irrefl in C. discriminate.
Qed.

Lemma box_points_aux_sorted l h :
  StronglySorted (fun p q => compare_row_major p q = true) (box_points_aux l h).
Proof.
  revert h. induction l as [|l0 l IH]; intros [|h0 h]; simpl; try (constructor; constructor).
  eapply StronglySorted_flat_map; [apply zrange_sorted| |].
  - intros x _. eapply StronglySorted_map; [apply IH|]. intros p q _ _ H. simpl.
    rewrite Z.ltb_irrefl, Z.gtb_ltb, Z.ltb_irrefl. exact H.
  - intros x y b c _ _ Hxy Hb Hc. apply in_map_iff in Hb. apply in_map_iff in Hc.
    destruct Hb as [u [<- _]]. destruct Hc as [v [<- _]]. simpl.
    rewrite (proj2 (Z.ltb_lt _ _)) by exact Hxy. reflexivity.
Qed.

Lemma box_points_sorted o b : StronglySorted (fun p q => compare o p q = true) (box_points o b).
Proof.
  destruct o; simpl; [apply box_points_aux_sorted|].
  unfold box_points_cm. eapply StronglySorted_map; [apply box_points_aux_sorted|].
  intros p q _ _ H. unfold compare_column_major. rewrite !rev_involutive. exact H.
Qed.

(** ** traversal *)
Fixpoint chain (inc : point -> point * bool) (L : list point) (e : point) : Prop :=
  match L with
  | [] => False
  | p :: L' => match L' with [] => inc p = (e, false) | q :: _ => inc p = (q, true) /\ chain inc L' e end
  end.

Lemma chain_cons2 inc p q L e : chain inc (p :: q :: L) e = (inc p = (q, true) /\ chain inc (q :: L) e).
Proof. reflexivity. Qed.

Lemma traverse_chain inc L e fuel p :
  chain inc (p :: L) e -> (length (p :: L) <= fuel)%nat -> traverse fuel inc p = Some (p :: L, e).
Proof.
  revert p fuel. induction L as [|q L IH]; intros p fuel Hc Hf.
  - destruct fuel as [|f]; simpl in *; [lia|]. rewrite Hc. reflexivity.
  - destruct fuel as [|f]; [simpl in Hf; lia|]. rewrite chain_cons2 in Hc. destruct Hc as [H1 H2].
    cbn [traverse]. rewrite H1. rewrite (IH q f H2) by (simpl in *; lia). reflexivity.
Qed.

(** effective upper corner seen by the do-while loop: an empty side is visited once *)
Fixpoint clamp_hi (l h : point) : point :=
  match l, h with
  | l0 :: l', h0 :: h' => Z.max l0 h0 :: clamp_hi l' h'
  | _, _ => []
  end.
Definition clamp (b : rect) : rect := mk_rect (lo b) (clamp_hi (lo b) (hi b)).

Lemma clamp_hi_length l h : length l = length h -> length (clamp_hi l h) = length l.
Proof. revert h; induction l as [|a l IH]; intros [|b h] H; simpl in *; try discriminate; auto. Qed.
Lemma clamp_hi_nonempty l h : nonempty_aux l h -> clamp_hi l h = h.
Proof.
  revert h; induction l as [|a l IH]; intros [|b h]; simpl; try tauto.
  intros [H1 H2]. rewrite IH by exact H2. f_equal. lia.
Qed.
Lemma clamp_nonempty_aux l h : length l = length h -> nonempty_aux l (clamp_hi l h).
Proof. revert h; induction l as [|a l IH]; intros [|b h] H; simpl in *; try discriminate; auto. split; [lia|apply IH; lia]. Qed.
Lemma clamp_hi_rev l h : length l = length h -> clamp_hi (rev l) (rev h) = rev (clamp_hi l h).
Proof.
  assert (S : forall l h a b, length l = length h -> clamp_hi (l ++ [a]) (h ++ [b]) = clamp_hi l h ++ [Z.max a b]).
  { clear. induction l as [|x l IH]; intros [|y h] a b H; simpl in *; try discriminate; [reflexivity|].
    rewrite IH by lia. reflexivity. }
  revert h; induction l as [|a l IH]; intros [|b h] H; simpl in *; try discriminate; [reflexivity|].
  rewrite S by (rewrite !rev_length; lia). rewrite IH by lia. reflexivity.
Qed.

Lemma box_points_aux_hd l h : nonempty_aux l h -> exists L, box_points_aux l h = l :: L.
Proof.
  revert h; induction l as [|l0 l IH]; intros [|h0 h]; simpl; try tauto.
  - exists []. reflexivity.
  - intros [H1 H2]. destruct (IH h H2) as [L HL]. rewrite zrange_cons by exact H1. simpl. rewrite HL. simpl.
    eexists. reflexivity.
Qed.

Lemma chain_app inc L1 L2 p2 e e1 :
  chain inc L1 e1 -> chain inc (p2 :: L2) e ->
  forall inc', (forall p q, inc p = (q, true) -> In p L1 -> inc' p = (q, true)) ->
  (forall p, In p L1 -> inc p = (e1, false) -> inc' p = (p2, true)) ->
  (forall p q m, In p (p2 :: L2) -> inc p = (q, m) -> inc' p = (q, m)) ->
  chain inc' (L1 ++ p2 :: L2) e.
Proof.
  intros H1 H2 inc' Ht Hf Hs.
  assert (C2 : chain inc' (p2 :: L2) e).
  { clear H1 Ht Hf. revert p2 H2 Hs. induction L2 as [|q L2 IH]; intros p2 H2 Hs.
    - simpl in *. apply Hs; [left; reflexivity|exact H2].
    - rewrite chain_cons2 in *. destruct H2 as [Ha Hb]. split; [apply Hs; [left; reflexivity|exact Ha]|].
      apply IH; [exact Hb|]. intros p r m Hp. apply Hs. right; exact Hp. }
  clear Hs H2. revert H1 Ht Hf. induction L1 as [|p L1 IH]; intros H1 Ht Hf; [destruct H1|].
  destruct L1 as [|q L1].
  - simpl app. rewrite chain_cons2. split; [apply Hf; [left; reflexivity|exact H1]|exact C2].
  - simpl app in *. rewrite chain_cons2 in *. destruct H1 as [Ha Hb]. split; [apply Ht; [exact Ha|left; reflexivity]|].
    apply IH; [exact Hb| |].
    + intros r s Hr Hin. apply Ht; [exact Hr|right; exact Hin].
    + intros r Hin. apply Hf. right; exact Hin.
Qed.

Lemma chain_map inc inc' (f : point -> point) L e :
  chain inc L e -> (forall p q m, In p L -> inc p = (q, m) -> inc' (f p) = (f q, m)) ->
  chain inc' (map f L) (f e).
Proof.
  induction L as [|p L IH]; intros H Hf; [destruct H|].
  destruct L as [|q L]; simpl map in *.
  - simpl in *. apply Hf; [left; reflexivity|exact H].
  - rewrite chain_cons2 in *. destruct H as [Ha Hb]. split; [apply Hf; [left; reflexivity|exact Ha]|].
    apply IH; [exact Hb|]. intros a b m Hin. apply Hf. right; exact Hin.
Qed.

(** prepending a coordinate: the slices x, x+1, ..., h0 *)
Lemma chain_slices l0 h0 l h B :
  chain (fun p => increment_row_major_aux p l h) (l :: B) l ->
  forall n x, l0 <= x <= Z.max l0 h0 -> n = Z.to_nat (Z.max l0 h0 - x) ->
  chain (fun p => increment_row_major_aux p (l0 :: l) (h0 :: h))
        (flat_map (fun x => map (cons x) (l :: B)) (zrange x (Z.max l0 h0))) (l0 :: l).
Proof.
  intros HB n. induction n as [|n IH]; intros x Hx Hn.
  - assert (x = Z.max l0 h0) by lia. rewrite zrange_cons by lia. rewrite zrange_nil by lia.
    cbn [flat_map]. rewrite app_nil_r.
    (* last slice: the wrap goes to l0 :: l *)
    assert (G : forall L e, chain (fun p => increment_row_major_aux p l h) L e ->
       chain (fun p => increment_row_major_aux p (l0 :: l) (h0 :: h)) (map (cons x) L) (l0 :: e)).
    { induction L as [|p L IHL]; intros e HL; [destruct HL|]. destruct L as [|q L].
      - simpl in *. rewrite HL. destruct (x >=? h0) eqn:E; [reflexivity|lia].
      - simpl map in *. rewrite chain_cons2 in *. destruct HL as [Ha Hb]. split; [|apply IHL; exact Hb].
        simpl. rewrite Ha. reflexivity. }
    apply G. exact HB.
  - rewrite zrange_cons by lia. cbn [flat_map].
    assert (IH' := IH (x + 1) ltac:(lia) ltac:(lia)).
    rewrite (zrange_cons (a := x + 1)) by lia. rewrite (zrange_cons (a := x + 1)) in IH' by lia.
    cbn [flat_map map app] in *.
    assert (G : forall L e R, chain (fun p => increment_row_major_aux p l h) L e ->
       chain (fun p => increment_row_major_aux p (l0 :: l) (h0 :: h)) ((x + 1 :: e) :: R) (l0 :: l) ->
       chain (fun p => increment_row_major_aux p (l0 :: l) (h0 :: h)) (map (cons x) L ++ (x + 1 :: e) :: R) (l0 :: l)).
    { induction L as [|p L IHL]; intros e R HL HR; [destruct HL|]. destruct L as [|q L].
      - simpl map. simpl app. rewrite chain_cons2. split; [|exact HR].
        simpl in HL. cbn [increment_row_major_aux]. rewrite HL.
        destruct (x >=? h0) eqn:E; [lia|reflexivity].
      - simpl map. simpl app. rewrite chain_cons2 in *. destruct HL as [Ha Hb]. split.
        + cbn [increment_row_major_aux]. rewrite Ha. reflexivity.
        + apply IHL; assumption. }
    apply (G (l :: B) l); assumption.
Qed.

Lemma chain_row_major l h : length l = length h ->
  chain (fun p => increment_row_major_aux p l h) (box_points_aux l (clamp_hi l h)) l.
Proof.
  revert h; induction l as [|l0 l IH]; intros [|h0 h] Hlen; simpl in Hlen; try discriminate.
  - simpl. reflexivity.
  - specialize (IH h ltac:(lia)). cbn [clamp_hi box_points_aux].
    destruct (box_points_aux_hd l (clamp_hi l h)) as [B HB]; [apply clamp_nonempty_aux; lia|].
    rewrite HB in *. eapply chain_slices; [exact IH|lia|reflexivity].
Qed.

Lemma increment_row_major_snoc p l h x l0 h0 : length p = length l -> length l = length h ->
  increment_row_major_aux (p ++ [x]) (l ++ [l0]) (h ++ [h0]) =
  if x >=? h0 then let '(q, m) := increment_row_major_aux p l h in (q ++ [l0], m) else (p ++ [x + 1], true).
Proof.
  revert l h. induction p as [|a p IH]; intros [|b l] [|c h] H1 H2; simpl in *; try discriminate.
  - reflexivity.
  - rewrite IH by lia. destruct (x >=? h0) eqn:E; [|reflexivity].
    destruct (increment_row_major_aux p l h) as [q m]. destruct m; [reflexivity|]. destruct (a >=? c); reflexivity.
Qed.

Lemma increment_row_major_aux_length p l h : length p = length l -> length l = length h ->
  length (fst (increment_row_major_aux p l h)) = length p.
Proof.
  revert l h. induction p as [|a p IH]; intros [|b l] [|c h] H1 H2; simpl in *; try discriminate; [reflexivity|].
  specialize (IH l h ltac:(lia) ltac:(lia)). destruct (increment_row_major_aux p l h) as [q m]. simpl in IH.
  destruct m; simpl; [lia|]. destruct (a >=? c); simpl; lia.
Qed.

Lemma increment_column_major_rev p l h : length p = length l -> length l = length h ->
  increment_column_major_aux p l h =
  let '(q, m) := increment_row_major_aux (rev p) (rev l) (rev h) in (rev q, m).
Proof.
  revert l h. induction p as [|a p IH]; intros [|b l] [|c h] H1 H2; simpl in *; try discriminate; [reflexivity|].
  rewrite increment_row_major_snoc by (rewrite !rev_length; lia).
  destruct (a >=? c) eqn:E.
  - rewrite IH by lia. destruct (increment_row_major_aux (rev p) (rev l) (rev h)) as [q m].
    rewrite rev_app_distr. reflexivity.
  - rewrite rev_app_distr, rev_involutive. reflexivity.
Qed.

Lemma chain_order o b : wf_box b -> chain (increment o b) (box_points o (clamp b)) (lo b).
Proof.
  intros H. destruct o; simpl.
  - apply chain_row_major. exact H.
  - unfold box_points_cm, clamp. simpl.
    rewrite <- clamp_hi_rev by exact H.
    rewrite <- (rev_involutive (lo b)) at 3.
    eapply chain_map.
    + apply chain_row_major. rewrite !rev_length. exact H.
    + intros p q m Hin Hp. unfold increment_column_major.
      assert (length p = length (lo b)).
      { apply in_box_points_aux in Hin.
        - apply contains_aux_length in Hin. rewrite rev_length in Hin. tauto.
        - rewrite clamp_hi_length; rewrite !rev_length; [reflexivity|exact H]. }
      rewrite increment_column_major_rev by (rewrite ?rev_length; assumption).
      rewrite rev_involutive, Hp. reflexivity.
Qed.

Lemma clamp_wf b : wf_box b -> wf_box (clamp b).
Proof. unfold wf_box, clamp. simpl. intros H. rewrite clamp_hi_length; [reflexivity|exact H]. Qed.

Lemma clamp_id b : nonempty_box b -> clamp b = b.
Proof.
  intros H. apply nonempty_box_aux in H. unfold clamp. rewrite clamp_hi_nonempty by exact H. destruct b; reflexivity.
Qed.

Lemma box_points_clamp_hd o b : wf_box b -> exists L, box_points o (clamp b) = lo b :: L.
Proof.
  intros H. pose proof (chain_order o b H) as _. destruct o; simpl.
  - apply box_points_aux_hd. simpl. apply clamp_nonempty_aux. exact H.
  - unfold box_points_cm, clamp. simpl. rewrite <- clamp_hi_rev by exact H.
    destruct (box_points_aux_hd (rev (lo b)) (clamp_hi (rev (lo b)) (rev (hi b)))) as [L HL].
    + apply clamp_nonempty_aux. rewrite !rev_length. exact H.
    + rewrite HL. simpl. rewrite rev_involutive. eexists; reflexivity.
Qed.

Lemma traverse_box o b fuel : wf_box b -> (length (box_points o (clamp b)) <= fuel)%nat ->
  traverse fuel (increment o b) (lo b) = Some (box_points o (clamp b), lo b).
Proof.
  intros Hwf Hf. destruct (box_points_clamp_hd o b Hwf) as [L HL].
  pose proof (chain_order o b Hwf) as Hc. rewrite HL in *. apply traverse_chain; assumption.
Qed.

(** ** linearisation *)
Lemma linearize_rm_acc p l h : length p = length l -> nonempty_aux l h ->
  snd (linearize_row_major_aux p l h) = volume_aux l h.
Proof.
  revert l h. induction p as [|x p IH]; intros [|l0 l] [|h0 h]; simpl; try discriminate; try tauto.
  intros Hlen [H1 H2]. specialize (IH l h ltac:(lia) H2).
  destruct (linearize_row_major_aux p l h) as [r a]. simpl in *. subst a.
  rewrite (proj2 (Z.ltb_ge _ _)) by lia. lia.
Qed.

Lemma linearize_rm_cons x p l0 l h0 h : length p = length l -> nonempty_aux l h ->
  fst (linearize_row_major_aux (x :: p) (l0 :: l) (h0 :: h)) =
  (x - l0) * volume_aux l h + fst (linearize_row_major_aux p l h).
Proof.
  intros H1 H2. pose proof (linearize_rm_acc p l h H1 H2) as Ha. simpl.
  destruct (linearize_row_major_aux p l h) as [r a]. simpl in *. subst a. lia.
Qed.

Lemma map_linearize_rm_aux l h : nonempty_aux l h ->
  map (fun p => fst (linearize_row_major_aux p l h)) (box_points_aux l h) = zrange 0 (volume_aux l h - 1).
Proof.
  revert h; induction l as [|l0 l IH]; intros [|h0 h]; try (simpl; tauto).
  - intros [H1 H2]. specialize (IH h H2). cbn [box_points_aux volume_aux].
    rewrite (proj2 (Z.ltb_ge _ _)) by lia.
    pose proof (nonempty_volume l h H2) as Hv. set (V := volume_aux l h) in *.
    assert (G : forall n x, l0 <= x <= h0 + 1 -> n = Z.to_nat (h0 - x + 1) ->
      map (fun p => fst (linearize_row_major_aux p (l0 :: l) (h0 :: h)))
          (flat_map (fun x => map (cons x) (box_points_aux l h)) (zrange x h0))
      = zrange ((x - l0) * V) ((h0 - l0 + 1) * V - 1)).
    { induction n as [|n IHn]; intros x Hx Hn.
      - assert (x = h0 + 1) by lia. subst x. rewrite zrange_nil by lia. simpl. rewrite zrange_nil by nia. reflexivity.
      - rewrite zrange_cons by lia. cbn [flat_map]. rewrite map_app, IHn by lia.
        rewrite map_map.
        rewrite (map_ext_in _ (fun p => (x - l0) * V + fst (linearize_row_major_aux p l h))).
        + rewrite <- (map_map (fun p => fst (linearize_row_major_aux p l h)) (fun k => (x - l0) * V + k)).
          rewrite IH.
          rewrite (zrange_app (a := (x - l0) * V) (b := (x - l0) * V + V - 1)) by nia.
          f_equal.
          * unfold zrange. rewrite map_map.
            replace (Z.to_nat ((x - l0) * V + V - 1 - (x - l0) * V + 1)) with (Z.to_nat (V - 1 - 0 + 1)) by lia.
            apply map_ext. intros i. lia.
          * f_equal; lia.
        + intros p Hp. apply in_box_points_aux in Hp; [|apply nonempty_aux_iff in H2; tauto].
          apply contains_aux_length in Hp. apply linearize_rm_cons; [tauto|exact H2]. }
    rewrite (G (Z.to_nat (h0 - l0 + 1)) l0) by lia. f_equal. lia.
Qed.

Lemma linearize_cm_snoc p l h x l0 h0 : length p = length l -> length l = length h ->
  linearize_row_major_aux (p ++ [x]) (l ++ [l0]) (h ++ [h0]) =
  (let '(r, a) := linearize_row_major_aux p l h in (r * (h0 - l0 + 1) + (x - l0), a * (h0 - l0 + 1))).
Proof.
  revert l h. induction p as [|y p IH]; intros [|b l] [|c h] H1 H2; simpl in H1, H2; try discriminate; cbn [linearize_row_major_aux app].
  - f_equal; ring.
  - rewrite IH by lia. destruct (linearize_row_major_aux p l h) as [r a]. f_equal; ring.
Qed.

Lemma linearize_cm_acc p l h r a : length p = length l -> length l = length h ->
  linearize_column_major_aux r a p l h = r + a * fst (linearize_row_major_aux (rev p) (rev l) (rev h)).
Proof.
  revert l h r a. induction p as [|y p IH]; intros [|b l] [|c h] r a H1 H2; simpl in H1, H2; try discriminate; cbn [linearize_column_major_aux rev].
  - cbn; ring.
  - rewrite IH by lia. rewrite linearize_cm_snoc by (rewrite !rev_length; lia).
    destruct (linearize_row_major_aux (rev p) (rev l) (rev h)) as [r' a']. simpl. ring.
Qed.

Lemma nonempty_aux_rev l h : nonempty_aux l h -> nonempty_aux (rev l) (rev h).
Proof.
  rewrite !nonempty_aux_iff, !rev_length. intros [H1 H2]. split; [exact H1|]. intros i Hi.
  rewrite !rev_nth by lia. replace (length h) with (length l) by lia. apply H2. lia.
Qed.

Lemma map_linearize o b : nonempty_box b ->
  map (linearize o b) (box_points o b) = zrange 0 (volume b - 1).
Proof.
  intros H. apply nonempty_box_aux in H. pose proof (proj1 (nonempty_aux_iff _ _) H) as [Hlen _].
  destruct o; simpl.
  - apply map_linearize_rm_aux. exact H.
  - unfold box_points_cm, volume. rewrite map_map. rewrite <- volume_aux_rev by exact Hlen.
    rewrite <- map_linearize_rm_aux by (apply nonempty_aux_rev; exact H).
    apply map_ext_in. intros p Hp.
    apply in_box_points_aux in Hp; [|rewrite !rev_length; exact Hlen].
    apply contains_aux_length in Hp. rewrite !rev_length in Hp.
    unfold linearize_column_major. rewrite linearize_cm_acc by (rewrite ?rev_length; lia).
    rewrite rev_involutive. lia.
Qed.

Lemma in_box_nonempty b p : in_box b p -> nonempty_box b.
Proof. intros H. apply contains_iff in H. apply nonempty_box_aux. eapply contains_nonempty. exact H. Qed.
Lemma in_box_wf b p : in_box b p -> wf_box b.
Proof. intros (H1 & H2 & H3). exact H2. Qed.
Lemma nonempty_wf b : nonempty_box b -> wf_box b.
Proof. intros [H _]. exact H. Qed.

Lemma linearize_range o b p : in_box b p -> 0 <= linearize o b p < volume b.
Proof.
  intros H. pose proof (in_box_nonempty _ _ H) as Hn.
  assert (Hin : In (linearize o b p) (zrange 0 (volume b - 1))).
  { rewrite <- (map_linearize o) by exact Hn. apply in_map. apply in_box_points; [apply nonempty_wf; exact Hn|exact H]. }
  apply in_zrange in Hin. lia.
Qed.

Lemma linearize_surj o b k : nonempty_box b -> 0 <= k < volume b -> exists p, in_box b p /\ linearize o b p = k.
Proof.
  intros Hn Hk. assert (Hin : In k (map (linearize o b) (box_points o b))).
  { rewrite map_linearize by exact Hn. apply in_zrange. lia. }
  apply in_map_iff in Hin. destruct Hin as [p [Hp Hin]]. exists p. split; [|exact Hp].
  eapply in_box_points; [apply nonempty_wf; exact Hn|exact Hin].
Qed.

Lemma nth_linearize o b i d : nonempty_box b -> (i < length (box_points o b))%nat ->
  linearize o b (nth i (box_points o b) d) = Z.of_nat i.
Proof.
  intros Hn Hi.
  rewrite <- (map_nth (linearize o b)). rewrite map_linearize by exact Hn.
  rewrite nth_zrange; [lia|].
  rewrite <- (box_points_length o) by (apply nonempty_wf; exact Hn). lia.
Qed.

Lemma linearize_mono o b p q : in_box b p -> in_box b q ->
  compare o p q = true <-> linearize o b p < linearize o b q.
Proof.
  intros Hp Hq. pose proof (in_box_nonempty _ _ Hp) as Hn. pose proof (nonempty_wf _ Hn) as Hwf.
  assert (Hip := proj2 (in_box_points o b p Hwf) Hp). assert (Hiq := proj2 (in_box_points o b q Hwf) Hq).
  destruct (In_nth _ _ [] Hip) as [i [Hi Ei]]. destruct (In_nth _ _ [] Hiq) as [j [Hj Ej]].
  rewrite <- Ei, <- Ej. rewrite !nth_linearize by assumption.
  assert (Hlen : length (nth i (box_points o b) []) = length (nth j (box_points o b) [])).
  { rewrite Ei, Ej. destruct Hp as (A & _), Hq as (B & _). lia. }
  split.
  - intros Hc. destruct (Nat.lt_trichotomy i j) as [Hlt|[Heq|Hgt]]; [lia| |].
    + subst j. rewrite compare_irrefl in Hc. discriminate.
    + assert (C := StronglySorted_nth [] (box_points_sorted o b) Hgt Hi). cbv beta in C.
      rewrite (compare_asym o _ _ (eq_sym Hlen) C) in Hc. discriminate.
  - intros Hlt. apply (StronglySorted_nth [] (box_points_sorted o b)); [lia|exact Hj].
Qed.

Lemma linearize_inj o b p q : in_box b p -> in_box b q -> linearize o b p = linearize o b q -> p = q.
Proof.
  intros Hp Hq E. apply (compare_total o).
  - destruct Hp as (A & _), Hq as (B & _). lia.
  - destruct (compare o p q) eqn:C; [|reflexivity]. apply (linearize_mono o b) in C; [lia|assumption|assumption].
  - destruct (compare o q p) eqn:C; [|reflexivity]. apply (linearize_mono o b) in C; [lia|assumption|assumption].
Qed.

(** empty boxes *)
Lemma not_nonempty_contains b p : ~ nonempty_box b -> contains b p = false.
Proof.
  intros H. destruct (contains b p) eqn:E; [|reflexivity]. exfalso. apply H.
  apply contains_iff in E. eapply in_box_nonempty. exact E.
Qed.
Lemma nonempty_box_dec b : {nonempty_box b} + {~ nonempty_box b}.
Proof.
  destruct (contains b (lo b)) eqn:E.
  - left. apply contains_iff in E. eapply in_box_nonempty; exact E.
  - right. intros H. apply nonempty_box_aux in H. apply nonempty_contains_lo in H. unfold contains in E. congruence.
Qed.
Lemma empty_box_points o b : wf_box b -> ~ nonempty_box b -> box_points o b = [].
Proof.
  intros Hwf H. destruct (box_points o b) as [|p L] eqn:E; [reflexivity|]. exfalso. apply H.
  apply (in_box_nonempty b p). apply (in_box_points o); [exact Hwf|]. rewrite E. left; reflexivity.
Qed.

Lemma padd_length p q : length p = length q -> length (padd p q) = length p.
Proof. revert q; induction p as [|a p IH]; intros [|b q] H; simpl in *; try discriminate; auto. Qed.
Lemma padd_nth p q i : length p = length q -> nth i (padd p q) 0 = nth i p 0 + nth i q 0.
Proof.
  revert q i; induction p as [|a p IH]; intros [|b q] i H; simpl in *; try discriminate.
  - destruct i; reflexivity.
  - destruct i as [|i]; [reflexivity|]. apply IH. lia.
Qed.
