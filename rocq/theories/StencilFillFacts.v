(** StencilFillFacts: contents written by the fill tasks. *)
From Verif Require Import Base Index IndexSpec IndexFacts Outcome Sched StencilFill StencilSpec.
Local Open Scope Z_scope.

Definition loc_eq_dec (a b : loc) : {a = b} + {a <> b}.
Proof. decide equality; try apply Z.eq_dec; apply list_eq_dec, Z.eq_dec. Defined.

Section F.
Variable E : Type.
Implicit Types (offs : list (point * E)) (enc : point -> point) (mdom : Z -> bool) (rdom : point -> bool).
Notation wstep := (wstep E).

(** entries of one row, in offset order *)
Definition row_entries (b : rect) offs (p : point) : list (point * E) :=
  flat_map (fun oe : point * E => if contains b (padd p (fst oe)) then [(padd p (fst oe), snd oe)] else []) offs.
Definition all_entries (b : rect) offs (L : list point) : list (point * (point * E)) :=
  flat_map (fun p => map (pair p) (row_entries b offs p)) L.

Fixpoint emits (emit : Z -> point -> E -> list wstep) (k : Z) (l : list (point * E)) : list wstep :=
  match l with
  | [] => []
  | ce :: r => emit k (fst ce) (snd ce) ++ emits emit (k + 1) r
  end.

Lemma row_loop_spec b emit offs p k :
  row_loop b emit offs p k =
  (emits emit k (row_entries b offs p), k + Z.of_nat (length (row_entries b offs p))).
Proof.
  revert k. induction offs as [|[o e] offs IH]; intros k; cbn [row_loop row_entries flat_map].
  - cbn. f_equal. lia.
  - cbn [fst snd]. destruct (contains b (padd p o)).
    + rewrite IH. cbn [app emits fst snd length]. unfold row_entries. f_equal. lia.
    + rewrite IH. reflexivity.
Qed.

Lemma in_emits emit k l st : In st (emits emit k l) <->
  exists i c e, nth_error l i = Some (c, e) /\ In st (emit (k + Z.of_nat i) c e).
Proof.
  revert k. induction l as [|[c e] l IH]; intros k; cbn [emits fst snd].
  - split; [intros []|]. intros [[|i] [c [e [H _]]]]; discriminate.
  - rewrite in_app_iff, IH. split.
    + intros [H|[i [c' [e' [H1 H2]]]]].
      * exists 0%nat, c, e. split; [reflexivity|]. replace (k + Z.of_nat 0) with k by lia. exact H.
      * exists (S i), c', e'. split; [exact H1|]. replace (k + Z.of_nat (S i)) with (k + 1 + Z.of_nat i) by lia. exact H2.
    + intros [[|i] [c' [e' [H1 H2]]]].
      * left. simpl in H1. injection H1 as <- <-. replace (k + Z.of_nat 0) with k in H2 by lia. exact H2.
      * right. exists i, c', e'. split; [exact H1|]. replace (k + 1 + Z.of_nat i) with (k + Z.of_nat (S i)) by lia. exact H2.
Qed.

(** a whole pass over a list of points *)
Section Pass.
Variables (b : rect) (offs : list (point * E)) (W : point -> Z -> list wstep).
Let body p k := (W p k, k + Z.of_nat (length (row_entries b offs p))).

Fixpoint pass (L : list point) (k : Z) : list wstep :=
  match L with
  | [] => []
  | p :: L' => W p k ++ pass L' (k + Z.of_nat (length (row_entries b offs p)))
  end.

Lemma all_entries_cons p L : all_entries b offs (p :: L) = map (pair p) (row_entries b offs p) ++ all_entries b offs L.
Proof. reflexivity. Qed.
Lemma all_entries_app L1 L2 : all_entries b offs (L1 ++ L2) = all_entries b offs L1 ++ all_entries b offs L2.
Proof. apply flat_map_app_f. Qed.

Lemma pass_app L1 L2 k : pass (L1 ++ L2) k = pass L1 k ++ pass L2 (k + Z.of_nat (length (all_entries b offs L1))).
Proof.
  revert k. induction L1 as [|p L1 IH]; intros k; cbn [pass app].
  - cbn. f_equal. lia.
  - rewrite IH, app_assoc. do 2 f_equal. rewrite all_entries_cons, app_length, map_length. lia.
Qed.

Lemma fill_loop_chain inc body' L e fuel p k :
  (forall p k, body' p k = body p k) ->
  chain inc (p :: L) e -> (length (p :: L) <= fuel)%nat ->
  fill_loop fuel inc body' p k = Ok (pass (p :: L) k, k + Z.of_nat (length (all_entries b offs (p :: L)))).
Proof.
  intros Hb. revert p k fuel. induction L as [|q L IH]; intros p k fuel Hc Hf.
  - destruct fuel as [|f]; simpl in Hf; [lia|]. cbn [fill_loop]. rewrite Hb. unfold body.
    simpl in Hc. rewrite Hc. cbn [pass]. rewrite app_nil_r. do 2 f_equal.
    rewrite all_entries_cons, app_length, map_length. simpl. lia.
  - destruct fuel as [|f]; [simpl in Hf; lia|]. rewrite chain_cons2 in Hc. destruct Hc as [H1 H2].
    cbn [fill_loop]. rewrite Hb. unfold body. rewrite H1. rewrite (IH q _ f H2) by (simpl in *; lia).
    cbn [obind fst snd]. f_equal. f_equal.
    rewrite (all_entries_cons p), app_length, map_length. lia.
Qed.

Lemma in_pass L k st : In st (pass L k) <->
  exists i p, nth_error L i = Some p /\ In st (W p (k + Z.of_nat (length (all_entries b offs (firstn i L))))).
Proof.
  revert k. induction L as [|q L IH]; intros k; cbn [pass].
  - split; [intros []|]. intros [[|i] [p [H _]]]; discriminate.
  - rewrite in_app_iff, IH. split.
    + intros [H|[i [p [H1 H2]]]].
      * exists 0%nat, q. split; [reflexivity|]. cbn. replace (k + 0) with k by lia. exact H.
      * exists (S i), p. split; [exact H1|]. cbn [firstn]. rewrite all_entries_cons, app_length, map_length.
        match goal with |- In st (W p ?z) => match type of H2 with In st (W p ?y) => replace z with y by lia end end. exact H2.
    + intros [[|i] [p [H1 H2]]].
      * left. simpl in H1. injection H1 as <-. cbn in H2. replace (k + 0) with k in H2 by lia. exact H2.
      * right. exists i, p. split; [exact H1|]. cbn [firstn] in H2. rewrite all_entries_cons, app_length, map_length in H2.
        match goal with |- In st (W p ?z) => match type of H2 with In st (W p ?y) => replace z with y by lia end end. exact H2.
Qed.
End Pass.

(** position of the j-th entry of the i-th row *)
Lemma nth_all_entries b offs L n p c e :
  nth_error (all_entries b offs L) n = Some (p, (c, e)) <->
  exists i j, nth_error L i = Some p /\ nth_error (row_entries b offs p) j = Some (c, e) /\
              n = (length (all_entries b offs (firstn i L)) + j)%nat.
Proof.
  revert n. induction L as [|q L IH]; intros n.
  - split; [destruct n; discriminate|]. intros [[|i] [j [H _]]]; discriminate.
  - rewrite all_entries_cons. destruct (lt_dec n (length (row_entries b offs q))) as [Hn|Hn].
    + rewrite nth_error_app1 by (rewrite map_length; exact Hn). rewrite nth_error_map_some. split.
      * destruct (nth_error (row_entries b offs q) n) as [[c' e']|] eqn:En; [|discriminate].
        simpl. intros H. injection H as -> -> ->. exists 0%nat, n. split; [reflexivity|]. split; [exact En|]. reflexivity.
      * intros [[|i] [j (H1 & H2 & H3)]].
        -- simpl in H1, H3. injection H1 as ->. subst j. rewrite H2. reflexivity.
        -- cbn [firstn] in H3. rewrite all_entries_cons, app_length, map_length in H3. lia.
    + rewrite nth_error_app2 by (rewrite map_length; lia). rewrite map_length, IH. split.
      * intros [i [j (H1 & H2 & H3)]]. exists (S i), j. split; [exact H1|]. split; [exact H2|].
        cbn [firstn]. rewrite all_entries_cons, app_length, map_length. lia.
      * intros [[|i] [j (H1 & H2 & H3)]].
        -- simpl in H1, H3. injection H1 as ->. subst j. exfalso. apply Hn. apply nth_error_Some. congruence.
        -- cbn [firstn] in H3. rewrite all_entries_cons, app_length, map_length in H3. exists i, j.
           split; [exact H1|]. split; [exact H2|]. lia.
Qed.

(** ** single tasks *)
Definition coo_W (b : rect) offs enc mdom (p : point) (k : Z) : list wstep :=
  emits (emit_coo enc mdom p) k (row_entries b offs p).
Definition csr_W (b : rect) offs enc mdom rdom (p : point) (k : Z) : list wstep :=
  emits (emit_csr enc mdom) k (row_entries b offs p) ++
  (if rdom (enc p) then [wr (LRowptr (enc p)) (CRect k (k + Z.of_nat (length (row_entries b offs p)) - 1))] else []).

Lemma coo_body_spec b enc mdom offs p k :
  coo_body b enc mdom offs p k = (coo_W b offs enc mdom p k, k + Z.of_nat (length (row_entries b offs p))).
Proof. unfold coo_body. apply row_loop_spec. Qed.
Lemma csr_body_spec b enc mdom rdom offs p k :
  csr_body b enc mdom rdom offs p k = (csr_W b offs enc mdom rdom p k, k + Z.of_nat (length (row_entries b offs p))).
Proof. unfold csr_body. rewrite row_loop_spec. reflexivity. Qed.

Definition enough_fuel (o : IndexOrder) (b : rect) (fuel : nat) : Prop :=
  (length (box_points o (clamp b)) <= fuel)%nat.

Lemma fill_coo_gen_spec fuel o b enc mdom offs : wf_box b -> enough_fuel o b fuel ->
  fill_coo_gen fuel o b enc mdom offs =
  Ok (pass b offs (coo_W b offs enc mdom) (box_points o (clamp b)) 0,
      Z.of_nat (length (all_entries b offs (box_points o (clamp b))))).
Proof.
  intros Hwf Hf. unfold fill_coo_gen. destruct (box_points_clamp_hd o b Hwf) as [L HL].
  pose proof (chain_order o b Hwf) as Hc. unfold enough_fuel in Hf. rewrite HL in *.
  erewrite fill_loop_chain; [|apply coo_body_spec|exact Hc|exact Hf]. reflexivity.
Qed.
Lemma fill_csr_gen_spec fuel o b enc mdom rdom offs : wf_box b -> enough_fuel o b fuel ->
  fill_csr_gen fuel o b enc mdom rdom offs =
  Ok (pass b offs (csr_W b offs enc mdom rdom) (box_points o (clamp b)) 0,
      Z.of_nat (length (all_entries b offs (box_points o (clamp b))))).
Proof.
  intros Hwf Hf. unfold fill_csr_gen. destruct (box_points_clamp_hd o b Hwf) as [L HL].
  pose proof (chain_order o b Hwf) as Hc. unfold enough_fuel in Hf. rewrite HL in *.
  erewrite fill_loop_chain; [|apply csr_body_spec|exact Hc|exact Hf]. reflexivity.
Qed.

Lemma all_entries_clamp o b offs : wf_box b ->
  all_entries b offs (box_points o (clamp b)) = all_entries b offs (box_points o b).
Proof.
  intros Hwf. destruct (nonempty_box_dec b) as [Hn|Hn].
  - rewrite clamp_id by exact Hn. reflexivity.
  - rewrite (empty_box_points o b Hwf Hn). unfold all_entries. rewrite flat_map_nil; [reflexivity|].
    intros p _. unfold row_entries. rewrite flat_map_nil; [reflexivity|].
    intros oe _. rewrite not_nonempty_contains by exact Hn. reflexivity.
Qed.

(** the entry list *)
Definition entries (o : IndexOrder) (b : rect) offs : list (point * (point * E)) :=
  all_entries b offs (box_points o b).

Lemma in_coo_pass o b enc mdom offs st : wf_box b ->
  In st (pass b offs (coo_W b offs enc mdom) (box_points o (clamp b)) 0) <->
  exists n p c e, nth_error (entries o b offs) n = Some (p, (c, e)) /\ mdom (Z.of_nat n) = true /\
    (st = wr (LRow (Z.of_nat n)) (CPoint (enc p)) \/ st = wr (LCol (Z.of_nat n)) (CPoint (enc c)) \/
     st = wr (LEntry (Z.of_nat n)) (CEntry e)).
Proof.
  intros Hwf. unfold entries. rewrite <- all_entries_clamp by exact Hwf.
  set (L := box_points o (clamp b)). rewrite in_pass. split.
  - intros [i [p [Hi Hin]]]. unfold coo_W in Hin. apply in_emits in Hin. destruct Hin as [j [c [e [Hj Hin]]]].
    exists (length (all_entries b offs (firstn i L)) + j)%nat, p, c, e. split; [|].
    + apply nth_all_entries. exists i, j. auto.
    + unfold emit_coo in Hin. rewrite Nat2Z.inj_add.
      replace (0 + Z.of_nat (length (all_entries b offs (firstn i L))) + Z.of_nat j) with
        (Z.of_nat (length (all_entries b offs (firstn i L))) + Z.of_nat j) in Hin by lia.
      destruct (mdom (Z.of_nat (length (all_entries b offs (firstn i L))) + Z.of_nat j)); [|destruct Hin].
      split; [reflexivity|]. destruct Hin as [<-|[<-|[<-|[]]]]; auto.
  - intros [n [p [c [e (Hn & Hm & Hst)]]]]. apply nth_all_entries in Hn. destruct Hn as [i [j (Hi & Hj & ->)]].
    exists i, p. split; [exact Hi|]. unfold coo_W. apply in_emits. exists j, c, e. split; [exact Hj|].
    rewrite Nat2Z.inj_add in *. unfold emit_coo.
    replace (0 + Z.of_nat (length (all_entries b offs (firstn i L))) + Z.of_nat j) with
        (Z.of_nat (length (all_entries b offs (firstn i L))) + Z.of_nat j) by lia.
    rewrite Hm. destruct Hst as [->|[->| ->]]; simpl; auto.
Qed.

(** start position of a row *)
Definition row_start (o : IndexOrder) (b : rect) offs (i : nat) : Z :=
  Z.of_nat (length (all_entries b offs (firstn i (box_points o b)))).

Lemma in_csr_pass o b enc mdom rdom offs st : nonempty_box b ->
  In st (pass b offs (csr_W b offs enc mdom rdom) (box_points o (clamp b)) 0) <->
  (exists n p c e, nth_error (entries o b offs) n = Some (p, (c, e)) /\ mdom (Z.of_nat n) = true /\
    (st = wr (LCol (Z.of_nat n)) (CPoint (enc c)) \/ st = wr (LEntry (Z.of_nat n)) (CEntry e)))
  \/ (exists i p, nth_error (box_points o b) i = Some p /\ rdom (enc p) = true /\
      st = wr (LRowptr (enc p)) (CRect (row_start o b offs i) (row_start o b offs (S i) - 1))).
Proof.
  intros Hne. rewrite clamp_id by exact Hne. unfold entries.
  set (L := box_points o b). rewrite in_pass. split.
  - intros [i [p [Hi Hin]]]. unfold csr_W in Hin. apply in_app_or in Hin. destruct Hin as [Hin|Hin].
    + left. apply in_emits in Hin. destruct Hin as [j [c [e [Hj Hin]]]].
      exists (length (all_entries b offs (firstn i L)) + j)%nat, p, c, e. split.
      * apply nth_all_entries. exists i, j. auto.
      * unfold emit_csr in Hin. rewrite Nat2Z.inj_add.
        replace (0 + Z.of_nat (length (all_entries b offs (firstn i L))) + Z.of_nat j) with
          (Z.of_nat (length (all_entries b offs (firstn i L))) + Z.of_nat j) in Hin by lia.
        destruct (mdom (Z.of_nat (length (all_entries b offs (firstn i L))) + Z.of_nat j)); [|destruct Hin].
        split; [reflexivity|]. destruct Hin as [<-|[<-|[]]]; auto.
    + right. exists i, p. split; [exact Hi|]. destruct (rdom (enc p)) eqn:Hr; [|destruct Hin].
      split; [reflexivity|]. destruct Hin as [<-|[]]. unfold row_start. fold L.
      assert (Hs : firstn (S i) L = firstn i L ++ [p]).
      { clear -Hi. revert i Hi. induction L as [|q L IH]; intros [|i] Hi; simpl in *; try discriminate.
        - injection Hi as ->. reflexivity.
        - f_equal. apply IH. exact Hi. }
      rewrite Hs, all_entries_app, app_length. rewrite (all_entries_cons b offs p []). rewrite app_length, map_length.
      simpl (length (all_entries b offs [])). f_equal. f_equal; lia.
  - intros [[n [p [c [e (Hn & Hm & Hst)]]]]|[i [p (Hi & Hr & ->)]]].
    + apply nth_all_entries in Hn. destruct Hn as [i [j (Hi & Hj & ->)]].
      exists i, p. split; [exact Hi|]. unfold csr_W. apply in_or_app. left. apply in_emits. exists j, c, e. split; [exact Hj|].
      rewrite Nat2Z.inj_add in *. unfold emit_csr.
      replace (0 + Z.of_nat (length (all_entries b offs (firstn i L))) + Z.of_nat j) with
          (Z.of_nat (length (all_entries b offs (firstn i L))) + Z.of_nat j) by lia.
      rewrite Hm. destruct Hst as [->| ->]; simpl; auto.
    + exists i, p. split; [exact Hi|]. unfold csr_W. apply in_or_app. right. rewrite Hr. left.
      unfold row_start. fold L.
      assert (Hs : firstn (S i) L = firstn i L ++ [p]).
      { clear -Hi. revert i Hi. induction L as [|q L IH]; intros [|i] Hi; simpl in *; try discriminate.
        - injection Hi as ->. reflexivity.
        - f_equal. apply IH. exact Hi. }
      rewrite Hs, all_entries_app, app_length. rewrite (all_entries_cons b offs p []). rewrite app_length, map_length.
      simpl (length (all_entries b offs [])). f_equal. f_equal; lia.
Qed.

(** empty boxes write nothing to the kernel and only probe rowptr at clamp points *)
Lemma in_csr_pass_empty o b enc mdom rdom offs st : wf_box b -> ~ nonempty_box b ->
  In st (pass b offs (csr_W b offs enc mdom rdom) (box_points o (clamp b)) 0) ->
  exists p, rdom (enc p) = true /\ tgt st = LRowptr (enc p).
Proof.
  intros Hwf Hne Hin. apply in_pass in Hin. destruct Hin as [i [p [Hi Hin]]].
  assert (Hr : row_entries b offs p = []).
  { unfold row_entries. apply flat_map_nil. intros oe _. rewrite not_nonempty_contains by exact Hne. reflexivity. }
  unfold csr_W in Hin. rewrite Hr in Hin. cbn [emits app] in Hin.
  exists p. destruct (rdom (enc p)); [|destruct Hin]. split; [reflexivity|]. destruct Hin as [<-|[]]. reflexivity.
Qed.

(** ** launches *)
(** a run whose steps on location l all write the constant v *)
Lemma run_const (t : list wstep) s l v :
  (exists st, In st t /\ tgt st = l) ->
  (forall st, In st t -> tgt st = l -> st = wr l v) ->
  run loc_eq_dec t s l = v.
Proof.
  intros Hex Hall. revert s. induction t as [|st t IH] using rev_ind; intros s.
  - destruct Hex as [st [[] _]].
  - rewrite run_app. change (run loc_eq_dec [st] (run loc_eq_dec t s)) with (exec loc_eq_dec (run loc_eq_dec t s) st).
    unfold exec. destruct (loc_eq_dec l (tgt st)) as [El|El].
    + rewrite El. rewrite upd_same.
      assert (Est : st = wr l v) by (apply Hall; [apply in_or_app; right; left; reflexivity|symmetry; exact El]).
      rewrite Est. reflexivity.
    + rewrite upd_other by exact El. apply IH.
      * destruct Hex as [st' [Hin Ht]]. apply in_app_or in Hin. destruct Hin as [Hin|[<-|[]]]; [|congruence].
        exists st'. split; assumption.
      * intros st' Hin. apply Hall. apply in_or_app. left. exact Hin.
Qed.

(** Steps write-only: no reads *)
Definition write_only (t : list wstep) : Prop := forall st, In st t -> rds st = [].

Lemma coo_pass_write_only o b enc mdom offs : wf_box b ->
  write_only (pass b offs (coo_W b offs enc mdom) (box_points o (clamp b)) 0).
Proof.
  intros Hwf st Hin. apply in_coo_pass in Hin; [|exact Hwf].
  destruct Hin as [n [p [c [e (_ & _ & [->|[->| ->]])]]]]; reflexivity.
Qed.

Lemma emits_write_only enc mdom k l st : In st (emits (emit_csr enc mdom) k l) -> rds st = [].
Proof.
  intros H. apply in_emits in H. destruct H as [i [c [e [_ H]]]]. unfold emit_csr in H.
  destruct (mdom (k + Z.of_nat i)); [|destruct H]. destruct H as [<-|[<-|[]]]; reflexivity.
Qed.
Lemma csr_pass_write_only b L enc mdom rdom offs k :
  write_only (pass b offs (csr_W b offs enc mdom rdom) L k).
Proof.
  intros st Hin. apply in_pass in Hin. destruct Hin as [i [p [_ Hin]]]. unfold csr_W in Hin.
  apply in_app_or in Hin. destruct Hin as [Hin|Hin]; [eapply emits_write_only; exact Hin|].
  destruct (rdom (enc p)); [|destruct Hin]. destruct Hin as [<-|[]]. reflexivity.
Qed.

Lemma write_only_non_interfering (ts : list (list wstep)) :
  Forall write_only ts ->
  (forall i j ti tj l, i <> j -> nth_error ts i = Some ti -> nth_error ts j = Some tj -> writes ti l -> ~ writes tj l) ->
  non_interfering ts.
Proof.
  intros Hwo Hd i j ti tj l Hij Hi Hj Hw. split; [eapply Hd; eassumption|].
  intros [st [Hin Hr]]. rewrite Forall_forall in Hwo. rewrite (Hwo tj) in Hr; [destruct Hr|eapply nth_error_In; exact Hj|exact Hin].
Qed.
End F.
Arguments row_entries {E}.
Arguments all_entries {E}.
Arguments entries {E}.
Arguments row_start {E}.
Arguments emits {E}.
Arguments pass {E}.
Arguments coo_W {E}.
Arguments csr_W {E}.
Arguments write_only {E}.
