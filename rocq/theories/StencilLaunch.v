(** StencilLaunch: whole fill launches (create_*_stencil_matrix, src/StencilGenerator.hpp:326-643): one task per
    piece, any interleaving. *)
From Verif Require Import Base Index IndexSpec IndexFacts Outcome Sched PartitionSpec StencilSize StencilSpec StencilSizeFacts StencilFill StencilFillFacts.
Set Implicit Arguments.
Local Open Scope Z_scope.

Section L.
Variable E : Type.
Variable ltE : E -> E -> bool.
Implicit Types (offs sorted : list (point * E)) (enc : point -> point).
Notation wstep := (wstep E).
Notation runS := (run loc_eq_dec).

Definition flat3 (pe : point * (point * E)) : point * point * E := (fst pe, fst (snd pe), snd (snd pe)).

Lemma row_entries_row b sorted p : map flat3 (map (pair p) (row_entries b sorted p)) = stencil_row b sorted p.
Proof.
  unfold row_entries, stencil_row. induction sorted as [|[o e] sorted IH]; [reflexivity|].
  cbn [flat_map filter fst snd]. destruct (contains b (padd p o)); cbn [app map]; rewrite ?IH; reflexivity.
Qed.
Lemma all_entries_contents b sorted L : map flat3 (all_entries b sorted L) = flat_map (stencil_row b sorted) L.
Proof.
  induction L as [|p L IH]; [reflexivity|]. rewrite all_entries_cons. cbn [flat_map]. rewrite map_app, IH.
  rewrite row_entries_row. reflexivity.
Qed.
Lemma entries_contents o b sorted : map flat3 (entries o b sorted) = stencil_contents o b sorted.
Proof. apply all_entries_contents. Qed.
Lemma row_start_first o b sorted i : row_start o b sorted i = row_first o b sorted i.
Proof. unfold row_start, row_first. rewrite <- all_entries_contents, map_length. reflexivity. Qed.

Lemma nth_contents o b sorted k r c e : nth_error (stencil_contents o b sorted) k = Some (r, c, e) <->
  nth_error (entries o b sorted) k = Some (r, (c, e)).
Proof.
  rewrite <- entries_contents, nth_error_map_some.
  destruct (nth_error (entries o b sorted) k) as [[r' [c' e']]|]; simpl; unfold flat3; simpl;
    split; intros H; try discriminate; injection H as -> -> ->; reflexivity.
Qed.

(** ** contents versus the mathematical definition *)
Lemma stencil_contents_pairs o b sorted : stencil_contents o b sorted =
  map triple_of (filter (fun pe => contains b (padd (fst pe) (fst (snd pe)))) (list_prod (box_points o b) sorted)).
Proof.
  unfold stencil_contents. induction (box_points o b) as [|p L IH]; [reflexivity|].
  cbn [flat_map list_prod]. rewrite filter_app, map_app, IH. f_equal.
  unfold stencil_row. clear IH. induction sorted as [|oe sorted IHs]; [reflexivity|]. cbn [filter map fst snd].
  destruct (contains b (padd p (fst oe))); cbn [map]; rewrite IHs; reflexivity.
Qed.

Lemma box_points_perm o o' b : wf_box b -> Permutation (box_points o b) (box_points o' b).
Proof.
  intros H. apply NoDup_Permutation; try apply NoDup_box_points. intros p. rewrite !in_box_points by exact H. tauto.
Qed.

Lemma list_prod_flat_map A B (l1 : list A) (l2 : list B) : list_prod l1 l2 = flat_map (fun a => map (pair a) l2) l1.
Proof. induction l1 as [|a l1 IH]; simpl; [reflexivity|]. rewrite IH. reflexivity. Qed.
Lemma list_prod_perm A B (l1 l1' : list A) (l2 l2' : list B) : Permutation l1 l1' -> Permutation l2 l2' ->
  Permutation (list_prod l1 l2) (list_prod l1' l2').
Proof.
  intros H1 H2. rewrite !list_prod_flat_map.
  transitivity (flat_map (fun a => map (pair a) l2) l1').
  - apply Permutation_flat_map. exact H1.
  - clear H1. induction l1' as [|a l IH]; simpl; [constructor|]. apply Permutation_app; [apply Permutation_map; exact H2|exact IH].
Qed.

Lemma stencil_contents_perm o b offs sorted : wf_box b -> Permutation offs sorted ->
  Permutation (stencil_contents o b sorted) (map triple_of (in_bounds_pairs b offs)).
Proof.
  intros Hb Hp. rewrite stencil_contents_pairs. apply Permutation_map. unfold in_bounds_pairs.
  apply Permutation_filter2. apply list_prod_perm; [apply (box_points_perm o ROW_MAJOR); exact Hb|symmetry; exact Hp].
Qed.

Lemma stencil_contents_length o b offs sorted : wf_box b -> Permutation offs sorted ->
  length (stencil_contents o b sorted) = length (in_bounds_pairs b offs).
Proof. intros Hb Hp. rewrite (Permutation_length (stencil_contents_perm o Hb Hp)), map_length. reflexivity. Qed.

Lemma padd_order o p q r : length p = length q -> length p = length r ->
  order_lt o q r <-> order_lt o (padd p q) (padd p r).
Proof.
  intros Hq Hr.
  assert (Lq : length (padd p q) = length q) by (rewrite padd_length; congruence).
  assert (Lr : length (padd p r) = length r) by (rewrite padd_length; congruence).
  destruct o; simpl; unfold lex_lt, colex_lt; rewrite !Lq, !Lr; split; intros [i (H1 & H2 & H3 & H4)]; exists i;
    (split; [exact H1|]); (split; [exact H2|]); rewrite ?padd_nth in * by congruence;
    (split; [lia|]); intros j Hj; specialize (H4 j Hj); rewrite ?padd_nth in * by congruence; lia.
Qed.
Lemma padd_inj p q r : length p = length q -> length p = length r -> padd p q = padd p r -> q = r.
Proof.
  revert q r. induction p as [|x p IH]; intros [|y q] [|z r] H1 H2 H; simpl in *; try discriminate; [reflexivity|].
  injection H as H3 H4. f_equal; [lia|]. apply IH; congruence.
Qed.

Lemma stencil_contents_sorted o b offs sorted : wf_box b -> offsets_dim b offs -> std_sort ltE o offs sorted ->
  StronglySorted (triple_before ltE o) (stencil_contents o b sorted).
Proof.
  intros Hb Hd [Hp Hs]. unfold stencil_contents.
  assert (Hd' : offsets_dim b sorted) by (unfold offsets_dim; eapply Permutation_Forall; [exact Hp|exact Hd]).
  clear Hp Hd.
  apply (@StronglySorted_flat_map _ _ (fun p q => compare o p q = true)).
  - apply box_points_sorted.
  - intros p Hin. apply in_box_points in Hin; [|exact Hb]. destruct Hin as [Hlen _].
    unfold stencil_row. induction sorted as [|[q e] sorted IH]; [constructor|]. cbn [filter fst].
    inversion Hs as [|? ? Hs1 Hs2]; subst. inversion Hd' as [|? ? Hd1 Hd2]; subst. specialize (IH Hs1 Hd2).
    destruct (contains b (padd p q)); [|exact IH]. cbn [map fst snd]. constructor; [exact IH|].
    rewrite Forall_forall in *. intros t Ht. apply in_map_iff in Ht. destruct Ht as [[q' e'] [<- Ht]].
    apply filter_In in Ht. destruct Ht as [Ht _]. cbn [fst snd triple_before]. right. split; [reflexivity|].
    specialize (Hs2 _ Ht). specialize (Hd2 _ Ht). simpl in Hd1, Hd2. unfold offset_less in Hs2. cbn [fst snd] in Hs2.
    destruct (compare o q' q) eqn:E1; [discriminate|]. destruct (compare o q q') eqn:E2.
    + left. apply padd_order; [congruence|congruence|]. apply compare_order_lt; [congruence|exact E2].
    + right. rewrite (compare_total o q q') by congruence. auto.
  - intros p q t u Hpi Hqi Hpq Ht Hu. unfold stencil_row in Ht, Hu.
    apply in_map_iff in Ht. destruct Ht as [? [<- _]]. apply in_map_iff in Hu. destruct Hu as [? [<- _]].
    cbn [triple_before]. left. apply compare_order_lt; [|exact Hpq].
    apply in_box_points in Hpi; [|exact Hb]. apply in_box_points in Hqi; [|exact Hb].
    destruct Hpi as [-> _]. destruct Hqi as [-> _]. reflexivity.
Qed.

(** ** executions *)
Lemma launch_const (ts : list (list wstep)) tr s l v i ti :
  interleave ts tr -> non_interfering ts -> nth_error ts i = Some ti -> writes ti l ->
  (forall st, In st ti -> tgt st = l -> st = wr l v) -> runS tr s l = v.
Proof.
  intros Hil Hni Hi Hw Hc.
  rewrite (interleave_task _ _ loc_eq_dec ts tr Hil Hni s i ti l Hi).
  - apply run_const; assumption.
  - intros j tj Hj Hjt Hwj. destruct (Hni i j ti tj l) as [H _]; try assumption; [congruence|]. apply H. exact Hwj.
Qed.

(** how a COO fill task writes *)
Definition coo_writes_like o b enc (mdom : Z -> bool) sorted (t : list wstep) : Prop :=
  forall st, In st t <-> exists n p c e, nth_error (entries o b sorted) n = Some (p, (c, e)) /\ mdom (Z.of_nat n) = true /\
    (st = wr (LRow (Z.of_nat n)) (CPoint (enc p)) \/ st = wr (LCol (Z.of_nat n)) (CPoint (enc c)) \/
     st = wr (LEntry (Z.of_nat n)) (CEntry e)).

Definition coo_loc_index (l : loc) : option Z :=
  match l with LRow k | LCol k | LEntry k => Some k | LRowptr _ => None end.

Lemma coo_writes_own o b enc mdom sorted t l : coo_writes_like o b enc mdom sorted t -> writes t l ->
  exists n, coo_loc_index l = Some (Z.of_nat n) /\ (n < length (entries o b sorted))%nat /\ mdom (Z.of_nat n) = true.
Proof.
  intros H [st [Hin Ht]]. apply H in Hin. destruct Hin as [n [p [c [e (Hn & Hm & Hst)]]]].
  exists n. split; [|split; [|exact Hm]].
  - subst l. destruct Hst as [->|[->| ->]]; reflexivity.
  - apply nth_error_Some. congruence.
Qed.

Section COO.
Variables (o : IndexOrder) (b : rect) (enc : point -> point) (sorted : list (point * E)).
Variables (pieces : list (Z -> bool)) (ts : list (list wstep)) (tr : list wstep) (s : store loc (cell E)).
Hypothesis Hts : Forall2 (fun m t => coo_writes_like o b enc m sorted t) pieces ts.
Hypothesis Hdis : disjoint_pieces pieces.
Hypothesis Hil : interleave ts tr.

Lemma coo_launch_non_interfering : non_interfering ts.
Proof.
  apply write_only_non_interfering.
  - apply Forall_forall. intros t Ht st Hst. apply In_nth_error in Ht. destruct Ht as [i Hi].
    destruct (nth_error_Forall2_r Hts i Hi) as [m [_ Hm]]. apply Hm in Hst.
    destruct Hst as [n [p [c [e (_ & _ & [->|[->| ->]])]]]]; reflexivity.
  - intros i j ti tj l Hij Hi Hj Hwi Hwj.
    destruct (nth_error_Forall2_r Hts i Hi) as [mi [Hmi Hi']]. destruct (nth_error_Forall2_r Hts j Hj) as [mj [Hmj Hj']].
    destruct (coo_writes_own Hi' Hwi) as [n (N1 & _ & N2)]. destruct (coo_writes_own Hj' Hwj) as [n' (N1' & _ & N2')].
    rewrite N1 in N1'. injection N1' as En. rewrite <- En in N2'. apply Hij. eapply Hdis; eassumption.
Qed.

Lemma coo_launch_position k p c e m :
  nth_error (entries o b sorted) k = Some (p, (c, e)) -> In m pieces -> m (Z.of_nat k) = true ->
  runS tr s (LRow (Z.of_nat k)) = CPoint (enc p) /\ runS tr s (LCol (Z.of_nat k)) = CPoint (enc c) /\
  runS tr s (LEntry (Z.of_nat k)) = CEntry e.
Proof.
  intros Hk Hm Hmk. apply In_nth_error in Hm. destruct Hm as [i Hi].
  destruct (nth_error_Forall2 Hts i Hi) as [t [Hti Ht]].
  assert (W : forall st, st = wr (LRow (Z.of_nat k)) (CPoint (enc p)) \/ st = wr (LCol (Z.of_nat k)) (CPoint (enc c)) \/
     st = wr (LEntry (Z.of_nat k)) (CEntry e) -> In st t).
  { intros st Hst. apply Ht. exists k, p, c, e. auto. }
  assert (G : forall l v, (exists st, In st t /\ tgt st = l) ->
     (forall st, In st t -> tgt st = l -> st = wr l v) -> runS tr s l = v).
  { intros l v Hw Hc. eapply launch_const; try eassumption. apply coo_launch_non_interfering. }
  split; [|split]; apply G.
  - eexists. split; [apply W; left; reflexivity|reflexivity].
  - intros st Hst Htg. apply Ht in Hst. destruct Hst as [n [p' [c' [e' (Hn & _ & Hst)]]]].
    destruct Hst as [->|[->| ->]]; simpl in Htg; try discriminate.
    injection Htg as En. apply Nat2Z.inj in En. subst n. rewrite Hk in Hn. injection Hn as -> -> ->. reflexivity.
  - eexists. split; [apply W; right; left; reflexivity|reflexivity].
  - intros st Hst Htg. apply Ht in Hst. destruct Hst as [n [p' [c' [e' (Hn & _ & Hst)]]]].
    destruct Hst as [->|[->| ->]]; simpl in Htg; try discriminate.
    injection Htg as En. apply Nat2Z.inj in En. subst n. rewrite Hk in Hn. injection Hn as -> -> ->. reflexivity.
  - eexists. split; [apply W; right; right; reflexivity|reflexivity].
  - intros st Hst Htg. apply Ht in Hst. destruct Hst as [n [p' [c' [e' (Hn & _ & Hst)]]]].
    destruct Hst as [->|[->| ->]]; simpl in Htg; try discriminate.
    injection Htg as En. apply Nat2Z.inj in En. subst n. rewrite Hk in Hn. injection Hn as -> -> ->. reflexivity.
Qed.

Lemma coo_launch_frame l : (forall k, coo_loc_index l = Some k -> ~ (0 <= k < Z.of_nat (length (entries o b sorted)))) ->
  runS tr s l = s l.
Proof.
  intros H. eapply interleave_frame; [exact Hil|]. intros t Ht Hw. apply In_nth_error in Ht. destruct Ht as [i Hi].
  destruct (nth_error_Forall2_r Hts i Hi) as [m [_ Hm]]. destruct (coo_writes_own Hm Hw) as [n (N1 & N2 & _)].
  apply (H _ N1). lia.
Qed.
End COO.

(** how a CSR fill task writes *)
Definition csr_writes_like o b enc (mdom : Z -> bool) (rdom : point -> bool) sorted (t : list wstep) : Prop :=
  forall st, In st t <->
  (exists n p c e, nth_error (entries o b sorted) n = Some (p, (c, e)) /\ mdom (Z.of_nat n) = true /\
    (st = wr (LCol (Z.of_nat n)) (CPoint (enc c)) \/ st = wr (LEntry (Z.of_nat n)) (CEntry e)))
  \/ (exists i p, nth_error (box_points o b) i = Some p /\ rdom (enc p) = true /\
      st = wr (LRowptr (enc p)) (CRect (row_first o b sorted i) (row_last o b sorted i))).

Section CSR.
Variables (o : IndexOrder) (b : rect) (enc : point -> point) (sorted : list (point * E)).
Variables (pieces : list ((Z -> bool) * (point -> bool))) (ts : list (list wstep)) (tr : list wstep) (s : store loc (cell E)).
Hypothesis Henc : forall p q, in_box b p -> in_box b q -> enc p = enc q -> p = q.
Hypothesis Hwf : wf_box b.
Hypothesis Hts : Forall2 (fun m t => csr_writes_like o b enc (fst m) (snd m) sorted t) pieces ts.
Hypothesis Hdis : disjoint_pieces (map fst pieces).
Hypothesis Hdisr : disjoint_pieces (map snd pieces).
Hypothesis Hil : interleave ts tr.

Definition csr_owns (m : (Z -> bool) * (point -> bool)) (l : loc) : Prop :=
  match l with
  | LRow _ => False
  | LCol k | LEntry k => fst m k = true /\ (0 <= k < Z.of_nat (length (entries o b sorted)))
  | LRowptr q => snd m q = true /\ exists p, in_box b p /\ q = enc p
  end.

Lemma csr_writes_own m t l : csr_writes_like o b enc (fst m) (snd m) sorted t -> writes t l -> csr_owns m l.
Proof.
  intros H [st [Hin Ht]]. apply H in Hin. destruct Hin as [[n [p [c [e (Hn & Hm & Hst)]]]]|[i [p (Hi & Hr & ->)]]].
  - assert (Hlt : (n < length (entries o b sorted))%nat) by (apply nth_error_Some; congruence).
    subst l. destruct Hst as [->| ->]; simpl; (split; [exact Hm|lia]).
  - subst l. simpl. split; [exact Hr|]. exists p. split; [|reflexivity].
    apply (in_box_points o b p Hwf). eapply nth_error_In. exact Hi.
Qed.

Lemma csr_launch_non_interfering : non_interfering ts.
Proof.
  apply write_only_non_interfering.
  - apply Forall_forall. intros t Ht st Hst. apply In_nth_error in Ht. destruct Ht as [i Hi].
    destruct (nth_error_Forall2_r Hts i Hi) as [m [_ Hm]]. apply Hm in Hst.
    destruct Hst as [[n [p [c [e (_ & _ & [->| ->])]]]]|[? [? (_ & _ & ->)]]]; reflexivity.
  - intros i j ti tj l Hij Hi Hj Hwi Hwj.
    destruct (nth_error_Forall2_r Hts i Hi) as [mi [Hmi Hi']]. destruct (nth_error_Forall2_r Hts j Hj) as [mj [Hmj Hj']].
    pose proof (@csr_writes_own mi ti l Hi' Hwi) as Oi. pose proof (@csr_writes_own mj tj l Hj' Hwj) as Oj.
    apply Hij. destruct l as [k|k|k|q]; simpl in Oi, Oj; try tauto.
    + apply (@Hdis i j (fst mi) (fst mj) k); try tauto; rewrite nth_error_map_some; [rewrite Hmi|rewrite Hmj]; reflexivity.
    + apply (@Hdis i j (fst mi) (fst mj) k); try tauto; rewrite nth_error_map_some; [rewrite Hmi|rewrite Hmj]; reflexivity.
    + apply (@Hdisr i j (snd mi) (snd mj) q); try tauto; rewrite nth_error_map_some; [rewrite Hmi|rewrite Hmj]; reflexivity.
Qed.

Lemma csr_launch_position k p c e m :
  nth_error (entries o b sorted) k = Some (p, (c, e)) -> In m (map fst pieces) -> m (Z.of_nat k) = true ->
  runS tr s (LCol (Z.of_nat k)) = CPoint (enc c) /\ runS tr s (LEntry (Z.of_nat k)) = CEntry e.
Proof.
  intros Hk Hm Hmk. apply in_map_iff in Hm. destruct Hm as [mm [<- Hm]]. apply In_nth_error in Hm. destruct Hm as [i Hi].
  destruct (nth_error_Forall2 Hts i Hi) as [t [Hti Ht]].
  assert (W : forall st, st = wr (LCol (Z.of_nat k)) (CPoint (enc c)) \/
     st = wr (LEntry (Z.of_nat k)) (CEntry e) -> In st t).
  { intros st Hst. apply Ht. left. exists k, p, c, e. auto. }
  assert (G : forall l v, (exists st, In st t /\ tgt st = l) ->
     (forall st, In st t -> tgt st = l -> st = wr l v) -> runS tr s l = v).
  { intros l v Hw Hc. eapply launch_const; try eassumption. apply csr_launch_non_interfering. }
  split; apply G.
  - eexists. split; [apply W; left; reflexivity|reflexivity].
  - intros st Hst Htg. apply Ht in Hst. destruct Hst as [[n [p' [c' [e' (Hn & _ & Hst)]]]]|[? [? (_ & _ & ->)]]]; [|discriminate].
    destruct Hst as [->| ->]; simpl in Htg; try discriminate.
    injection Htg as En. apply Nat2Z.inj in En. subst n. rewrite Hk in Hn. injection Hn as -> -> ->. reflexivity.
  - eexists. split; [apply W; right; reflexivity|reflexivity].
  - intros st Hst Htg. apply Ht in Hst. destruct Hst as [[n [p' [c' [e' (Hn & _ & Hst)]]]]|[? [? (_ & _ & ->)]]]; [|discriminate].
    destruct Hst as [->| ->]; simpl in Htg; try discriminate.
    injection Htg as En. apply Nat2Z.inj in En. subst n. rewrite Hk in Hn. injection Hn as -> -> ->. reflexivity.
Qed.

Lemma csr_launch_rowptr i p m :
  nth_error (box_points o b) i = Some p -> In m (map snd pieces) -> m (enc p) = true ->
  runS tr s (LRowptr (enc p)) = CRect (row_first o b sorted i) (row_last o b sorted i).
Proof.
  intros Hk Hm Hmk. apply in_map_iff in Hm. destruct Hm as [mm [<- Hm]]. apply In_nth_error in Hm. destruct Hm as [j Hj].
  destruct (nth_error_Forall2 Hts j Hj) as [t [Hti Ht]].
  eapply launch_const; [exact Hil|apply csr_launch_non_interfering|exact Hti| |].
  - eexists. split; [apply Ht; right; exists i, p; eauto|reflexivity].
  - intros st Hst Htg. apply Ht in Hst. destruct Hst as [[n [p' [c' [e' (Hn & _ & [->| ->])]]]]|[i' [p' (Hi' & _ & ->)]]]; try discriminate.
    simpl in Htg. injection Htg as En. apply Henc in En.
    + subst p'. assert (i' = i); [|subst; reflexivity].
      apply (proj1 (NoDup_nth_error (box_points o b)) (NoDup_box_points o b)); [apply nth_error_Some; congruence|congruence].
    + apply (in_box_points o b p' Hwf). eapply nth_error_In. exact Hi'.
    + apply (in_box_points o b p Hwf). eapply nth_error_In. exact Hk.
Qed.

Lemma csr_launch_frame l : (forall m, In m pieces -> ~ csr_owns m l) -> runS tr s l = s l.
Proof.
  intros H. eapply interleave_frame; [exact Hil|]. intros t Ht Hw. apply In_nth_error in Ht. destruct Ht as [i Hi].
  destruct (nth_error_Forall2_r Hts i Hi) as [m [Hmi Hm]]. apply (H m); [eapply nth_error_In; exact Hmi|].
  eapply csr_writes_own; eassumption.
Qed.
End CSR.

(** row intervals *)
Lemma row_first_0 o b sorted : row_first o b sorted 0 = 0.
Proof. reflexivity. Qed.
Lemma firstn_S_nth A (l : list A) i a : nth_error l i = Some a -> firstn (S i) l = firstn i l ++ [a].
Proof. revert i. induction l as [|x l IH]; intros [|i] H; simpl in *; try discriminate; [congruence|]. f_equal. apply IH. exact H. Qed.
Lemma row_first_S o b sorted i p : nth_error (box_points o b) i = Some p ->
  row_first o b sorted (S i) = row_first o b sorted i + Z.of_nat (length (stencil_row b sorted p)).
Proof.
  intros H. unfold row_first. rewrite (firstn_S_nth _ _ H), flat_map_app_f, app_length. simpl. rewrite app_nil_r. lia.
Qed.
Lemma row_first_all o b sorted : row_first o b sorted (length (box_points o b)) = Z.of_nat (length (stencil_contents o b sorted)).
Proof. unfold row_first. rewrite firstn_all. reflexivity. Qed.

Lemma row_interval o b sorted i p k t : wf_box b -> nth_error (box_points o b) i = Some p ->
  nth_error (stencil_contents o b sorted) k = Some t ->
  (row_first o b sorted i <= Z.of_nat k <= row_last o b sorted i <-> fst (fst t) = p).
Proof.
  intros Hwf Hi Hk.
  destruct t as [[r c] e]. simpl. pose proof (proj1 (nth_contents _ _ _ _ _ _ _) Hk) as Hk'.
  apply nth_all_entries in Hk'. destruct Hk' as [i' [j (H1 & H2 & H3)]].
  assert (Hlt : (j < length (row_entries b sorted r))%nat) by (apply nth_error_Some; congruence).
  assert (Ek : Z.of_nat k = row_first o b sorted i' + Z.of_nat j).
  { rewrite <- row_start_first. unfold row_start. lia. }
  assert (El : length (stencil_row b sorted r) = length (row_entries b sorted r)).
  { rewrite <- row_entries_row, !map_length. reflexivity. }
  assert (Mono : forall a d, (a <= d)%nat -> row_first o b sorted a <= row_first o b sorted d).
  { intros a d Had. unfold row_first. replace (firstn d (box_points o b)) with (firstn a (box_points o b) ++ skipn a (firstn d (box_points o b))).
    - rewrite flat_map_app_f, app_length. lia.
    - rewrite <- (firstn_skipn a (firstn d (box_points o b))) at 2. rewrite firstn_firstn. replace (Init.Nat.min a d) with a by lia. reflexivity. }
  pose proof (row_first_S _ _ sorted _ H1) as Si'. rewrite El in Si'.
  unfold row_last. split.
  - intros HI. assert (i = i').
    { destruct (lt_eq_lt_dec i i') as [[L|L]|L]; [|exact L|].
      - pose proof (Mono (S i) i' L). lia.
      - pose proof (Mono (S i') i L). lia. }
    subst i'. congruence.
  - intros ->. assert (i = i').
    { apply (proj1 (NoDup_nth_error (box_points o b)) (NoDup_box_points o b)); [apply nth_error_Some; congruence|congruence]. }
    subst i'. lia.
Qed.
End L.
