(** PropsPrintScalar: property C78 (what Scalar::print shows, and in which order). *)
From Verif Require Import Base Index Outcome Sched Async Arith Launch Vector PartitionSpec VectorFacts LaunchFacts Builder BuilderFacts Exec ScalarProg FreshFacts PrintScalar PropsVector.
Set Implicit Arguments.

(** ** The trace of a chain of operations, each of one step that depends on the one before *)
Section Chain.
Variable T : Type.
Notation step := (step loc T).
Definition tags_in (a b : nat) (x : nat * step) : bool := (a <=? fst x) && (fst x <=? b).
Lemma proj_cons i (x : nat * step) tr : proj i (x :: tr) = (if fst x =? i then [snd x] else []) ++ proj i tr.
Proof. unfold proj. cbn [filter]. destruct (fst x =? i); reflexivity. Qed.
Lemma proj_app i (t1 t2 : list (nat * step)) : proj i (t1 ++ t2) = proj i t1 ++ proj i t2.
Proof. unfold proj. rewrite filter_app, map_app. reflexivity. Qed.
Lemma proj_nil_in i (tr : list (nat * step)) : proj i tr = [] <-> forall x, In x tr -> fst x <> i.
Proof.
  induction tr as [|x tr IH]; [split; [intros _ x []|reflexivity]|]. rewrite proj_cons. split.
  - intros H y [<-|Hy] E; destruct (Nat.eqb_spec (fst x) i); try discriminate; [congruence|]. apply (proj1 IH H y Hy E).
  - intros H. destruct (Nat.eqb_spec (fst x) i) as [E|E]; [exfalso; apply (H x (or_introl eq_refl) E)|]. apply IH. intros y Hy. apply H. right. exact Hy.
Qed.
Lemma proj_single i (tr : list (nat * step)) st : proj i tr = [st] ->
  exists t1 t2, tr = t1 ++ (i, st) :: t2 /\ (forall x, In x t1 -> fst x <> i) /\ (forall x, In x t2 -> fst x <> i).
Proof.
  induction tr as [|x tr IH]; [discriminate|]. rewrite proj_cons. destruct (Nat.eqb_spec (fst x) i) as [E|E]; cbn [app]; intros H.
  - injection H as H1 H2. exists [], tr. split; [destruct x as [j a]; cbn in *; subst; reflexivity|]. split; [intros y []|]. apply proj_nil_in. exact H2.
  - destruct (IH H) as [t1 [t2 [-> [H1 H2]]]]. exists (x :: t1), t2. split; [reflexivity|]. split; [|exact H2]. intros y [<-|Hy]; [exact E|apply H1; exact Hy].
Qed.
Lemma ord_pairs_app A (R : A -> A -> Prop) l1 l2 : ForallOrdPairs R (l1 ++ l2) -> forall a b, In a l1 -> In b l2 -> R a b.
Proof.
  induction l1 as [|x l1 IH]; intros H a b Ha Hb; [destruct Ha|]. inversion H as [|y l Hx H' E]. subst. destruct Ha as [<-|Ha]; [|apply IH; assumption].
  rewrite Forall_forall in Hx. apply Hx. apply in_or_app. right. exact Hb.
Qed.
Lemma filter_none X (f : X -> bool) l : (forall x, In x l -> f x = false) -> filter f l = [].
Proof. induction l as [|x l IH]; intros H; [reflexivity|]. cbn. rewrite (H x (or_introl eq_refl)). apply IH. intros y Hy. apply H. right. exact Hy. Qed.
Lemma filter_same X (f g : X -> bool) l : (forall x, In x l -> f x = g x) -> filter f l = filter g l.
Proof. induction l as [|x l IH]; intros H; [reflexivity|]. cbn. rewrite (H x (or_introl eq_refl)), IH; [reflexivity|]. intros y Hy. apply H. right. exact Hy. Qed.

Lemma chain_in_order (tr : list (nat * step)) K len (stp : nat -> step) : ordered tr -> (forall i, i < len -> proj (K + i) tr = [stp i]) ->
  (forall i, S i < len -> ~ indep (stp (S i)) (stp i)) -> forall i, i < len ->
  (exists u w, tr = u ++ (K + i, stp i) :: w /\ forall x, In x w -> ~ (K <= fst x <= K + i)) /\ map snd (filter (tags_in K (K + i)) tr) = map stp (seq 0 (S i)).
Proof.
  intros Ho Hp Hd. induction i as [|i IH]; intros Hi.
  - destruct (proj_single _ _ (Hp 0 Hi)) as [t1 [t2 [-> [H1 H2]]]]. rewrite Nat.add_0_r in *. split.
    + exists t1, t2. split; [reflexivity|]. intros x Hx L. apply (H2 x Hx). lia.
    + rewrite filter_app. cbn [filter]. unfold tags_in at 2. cbn [fst]. rewrite !Nat.leb_refl. cbn [andb].
      assert (N : forall t, (forall x, In x t -> fst x <> K) -> filter (tags_in K K) t = []).
      { intros t Ht. apply filter_none. intros x Hx. unfold tags_in. specialize (Ht x Hx). destruct (Nat.leb_spec K (fst x)); destruct (Nat.leb_spec (fst x) K); try reflexivity. lia. }
      rewrite !N by assumption. reflexivity.
  - destruct (IH ltac:(lia)) as [[u [w [E Hw]]] F]. clear IH.
    assert (Hin : exists w1 w2, w = w1 ++ (K + S i, stp (S i)) :: w2 /\ (forall x, In x (u ++ (K + i, stp i) :: w1) -> fst x <> K + S i) /\ (forall x, In x w2 -> fst x <> K + S i)).
    { destruct (proj_single _ _ (Hp (S i) Hi)) as [t1 [t2 [E2 [H1 H2]]]].
      assert (Ha : In (K + S i, stp (S i)) tr) by (rewrite E2; apply in_or_app; right; left; reflexivity).
      rewrite E in Ha. apply in_app_or in Ha. destruct Ha as [Ha|[Ha|Ha]].
      - exfalso. rewrite E in Ho. apply (Hd i Hi). apply (ord_pairs_app _ _ Ho (K + S i, stp (S i)) (K + i, stp i) Ha); [left; reflexivity|]. cbn. lia.
      - exfalso. injection Ha as Ha _. lia.
      - apply in_split in Ha. destruct Ha as [w1 [w2 ->]]. exists w1, w2. split; [reflexivity|].
        assert (P := Hp (S i) Hi). rewrite E in P. rewrite proj_app, proj_cons, proj_app, proj_cons in P. cbn [fst snd] in P.
        replace (K + i =? K + S i) with false in P by (symmetry; apply Nat.eqb_neq; lia). rewrite Nat.eqb_refl in P. cbn [app] in P.
        destruct (proj (K + S i) u) as [|? [|? ?]] eqn:Pu; destruct (proj (K + S i) w1) as [|? [|? ?]] eqn:Pw1; destruct (proj (K + S i) w2) as [|? ?] eqn:Pw2; try discriminate P.
        split; [|apply proj_nil_in; exact Pw2]. intros x Hx. apply in_app_or in Hx. destruct Hx as [Hx|[<-|Hx]].
        + apply (proj1 (proj_nil_in _ _) Pu x Hx).
        + cbn. lia.
        + apply (proj1 (proj_nil_in _ _) Pw1 x Hx). }
    destruct Hin as [w1 [w2 [-> [N1 N2]]]]. assert (E' : tr = (u ++ (K + i, stp i) :: w1) ++ (K + S i, stp (S i)) :: w2) by (rewrite E, <- app_assoc; reflexivity).
    split.
    + exists (u ++ (K + i, stp i) :: w1), w2. split; [exact E'|]. intros x Hx L. assert (fst x <> K + S i) by (apply N2; exact Hx).
      apply (Hw x); [apply in_or_app; right; right; exact Hx|lia].
    + rewrite seq_S, map_app, <- F. cbn [map Nat.add]. rewrite E'. clear E E' F. set (t1 := u ++ (K + i, stp i) :: w1) in *. rewrite !filter_app, !map_app.
      assert (F2 : filter (tags_in K (K + i)) ((K + S i, stp (S i)) :: w2) = []).
      { apply filter_none. intros x [<-|Hx]; unfold tags_in; cbn [fst].
        - replace (K + S i <=? K + i) with false by (symmetry; apply Nat.leb_gt; lia). apply andb_false_r.
        - destruct (Nat.leb_spec K (fst x)); destruct (Nat.leb_spec (fst x) (K + i)); try reflexivity. exfalso. apply (Hw x); [apply in_or_app; right; right; exact Hx|lia]. }
      rewrite F2. cbn [map]. rewrite app_nil_r. f_equal.
      * f_equal. apply filter_same. intros x Hx. specialize (N1 x Hx). unfold tags_in. f_equal.
        destruct (Nat.leb_spec (fst x) (K + S i)); destruct (Nat.leb_spec (fst x) (K + i)); try reflexivity; lia.
      * cbn [filter]. unfold tags_in at 1. cbn [fst]. rewrite Nat.leb_refl. replace (K <=? K + S i) with true by (symmetry; apply Nat.leb_le; lia). cbn [andb map snd].
        f_equal. rewrite filter_none; [reflexivity|]. intros x Hx. unfold tags_in. specialize (N2 x Hx).
        destruct (Nat.leb_spec K (fst x)); destruct (Nat.leb_spec (fst x) (K + S i)); try reflexivity. exfalso. apply (Hw x); [apply in_or_app; right; right; exact Hx|lia].
Qed.

Lemma run_frame' (tr : list step) : forall s l, (forall st, In st tr -> tgt st <> l) -> run loc_dec tr s l = s l.
Proof.
  induction tr as [|st tr IH]; intros s l H; [reflexivity|]. change (run loc_dec (st :: tr) s) with (run loc_dec tr (exec loc_dec s st)).
  rewrite IH by (intros st' Hst; apply H; right; exact Hst). unfold exec, upd. destruct (loc_dec l (tgt st)) as [E|E]; [|reflexivity]. exfalso. apply (H st (or_introl eq_refl)). congruence.
Qed.
(** what is shown, when every print future is written once *)
Definition print_of (prints : list nat) (st : step) : list nat :=
  match tgt st with LFut n => if existsb (Nat.eqb n) prints then [n] else [] | _ => [] end.
Lemma shown_final prints (tr : list step) : NoDup (flat_map (print_of prints) tr) -> forall s,
  shown prints tr s = map (fun n => run loc_dec tr s (LFut n)) (flat_map (print_of prints) tr).
Proof.
  induction tr as [|st tr IH]; intros Hd s; [reflexivity|]. cbn [shown flat_map] in *. rewrite map_app, IH by (eapply NoDup_app_r; exact Hd).
  change (run loc_dec (st :: tr) s) with (run loc_dec tr (exec loc_dec s st)). f_equal. unfold print_of in *.
  destruct (tgt st) as [|n|] eqn:Et; try reflexivity. destruct (existsb (Nat.eqb n) prints) eqn:Ex; [|reflexivity]. cbn [map]. f_equal.
  symmetry. apply run_frame'. intros st' Hst E. cbn [app] in Hd. inversion Hd as [|? ? Hni _]. subst. apply Hni. apply in_flat_map. exists st'. split; [exact Hst|]. rewrite E, Ex. left. reflexivity.
Qed.
End Chain.

(** ** Chained prints *)
Lemma interleave_single T (st : step loc T) tr : interleave [[st]] tr -> tr = [st].
Proof.
  intros H. remember [[st]] as ts0 eqn:E0. destruct H as [ts Hn|ts1 a t ts2 tr' H'].
  - subst. inversion Hn; discriminate.
  - destruct ts1 as [|y ts1]; cbn in E0; [|destruct ts1; discriminate]. injection E0 as -> -> ->. f_equal.
    cbn in H'. remember [[]] as ts1 eqn:E1. destruct H' as [ts Hn|ts2 b t' ts3 tr2 H2]; [reflexivity|].
    destruct ts2 as [|y ts2]; cbn in E1; [discriminate|destruct ts2; discriminate].
Qed.
Section Print.
Variable T : Type.
Variable A : arith T.
Notation M := (M T).
(** the launches of the loop "dummy = x.print(dummy)" *)
Fixpoint chain_launches (dummy n : nat) (xs : list nat) : list (launch T) :=
  match xs with [] => [] | x :: rest => scalar_launch n [x; dummy] (shows A) :: chain_launches n (S n) rest end.
Lemma print_chain_eq xs : forall dummy st, print_chain A dummy xs st =
  Ok (seq (next_fut st) (length xs), chain_launches dummy (next_fut st) xs, mk_ist (next_fut st + length xs) (next_region st)).
Proof.
  induction xs as [|x xs IH]; intros dummy st; cbn [print_chain length seq chain_launches].
  - unfold ret. rewrite Nat.add_0_r. destruct st; reflexivity.
  - unfold bind at 1. cbn [scalar_print_after scalar_task fresh_fut issue submit interfering ln_reqs scalar_launch obind bind ret next_fut next_region app].
    unfold bind at 1. rewrite IH. cbn [obind next_fut next_region ret]. rewrite app_nil_r. unfold scalar_launch. rewrite <- Nat.add_succ_comm. reflexivity.
Qed.
Lemma chain_good xs : forall dummy n, Forall good_launch (chain_launches dummy n xs).
Proof. induction xs as [|x xs IH]; intros dummy n; constructor; [apply scalar_launch_good|apply IH]. Qed.
Lemma chain_length xs : forall dummy n, length (chain_launches dummy n xs) = length xs.
Proof. induction xs as [|x xs IH]; intros dummy n; cbn; [reflexivity|rewrite IH; reflexivity]. Qed.
Definition before (dummy n i : nat) : nat := match i with 0 => dummy | S j => n + j end.
Lemma chain_nth xs : forall dummy n i x, nth_error xs i = Some x ->
  nth_error (chain_launches dummy n xs) i = Some (scalar_launch (n + i) [x; before dummy n i] (shows A)).
Proof.
  induction xs as [|y xs IH]; intros dummy n [|i] x H; try discriminate.
  - injection H as ->. cbn. rewrite Nat.add_0_r. reflexivity.
  - cbn [chain_launches nth_error]. rewrite (IH n (S n) i x H). f_equal. f_equal; [lia|]. f_equal. f_equal. destruct i; cbn; lia.
Qed.
Lemma chain_effect xs : forall dummy n (s : store loc T), (forall x, In x xs -> x < n) ->
  (forall i x, nth_error xs i = Some x -> effect (chain_launches dummy n xs) s (LFut (n + i)) = s (LFut x)) /\ (forall l, (forall k, n <= k -> l <> LFut k) -> effect (chain_launches dummy n xs) s l = s l).
Proof.
  induction xs as [|y xs IH]; intros dummy n s Hx.
  - split; [intros [|i] x H; discriminate|]. intros l _. reflexivity.
  - cbn [chain_launches]. rewrite effect_cons. set (s1 := effect [scalar_launch n [y; dummy] (shows A)] s).
    destruct (IH n (S n) s1) as [H1 H2]; [intros x Hin; specialize (Hx x (or_intror Hin)); lia|].
    assert (E1 : s1 (LFut n) = s (LFut y)).
    { unfold s1. rewrite effect_one. cbn. unfold exec, upd. cbn. destruct (Nat.eq_dec n n); [reflexivity|contradiction]. }
    assert (E2 : forall l, l <> LFut n -> s1 l = s l).
    { intros l Hl. unfold s1. rewrite effect_one. cbn. unfold exec, upd. cbn [tgt]. destruct (loc_dec l (LFut n)); [contradiction|reflexivity]. }
    split.
    + intros [|i] x H.
      * injection H as <-. rewrite Nat.add_0_r, H2; [exact E1|]. intros k Hk E. injection E as E. lia.
      * rewrite <- Nat.add_succ_comm, (H1 i x H). apply E2. intros E. injection E as E. apply nth_error_In in H. specialize (Hx x H). lia.
    + intros l Hl. rewrite H2; [apply E2; apply Hl; lia|]. intros k Hk. apply Hl. lia.
Qed.
End Print.

(** ** C78.  A program that does anything ([m]) and then prints scalars one after another, each print being given the future of the one before: in every
    execution the lines come in program order, each showing the (final) value of its scalar. *)
Theorem C78_chained_prints : forall (T : Type) (A : arith T) X (m : M T X) (xs : X -> list nat) st x st' lns prints s tr,
  (let* y := m in let* ns := print_in_order A (xs y) in ret (y, ns)) st = Ok ((x, prints), lns, st') ->
  fresh_results m -> Forall good_launch lns -> (forall st1 lns1, m st = Ok (x, lns1, st1) -> forall f, In f (xs x) -> f < next_fut st1) ->
  execution (map (@op_of T) lns) tr ->
  let final := run loc_dec (map snd tr) s in
  shown prints (map snd tr) s = map (fun f => final (LFut f)) (xs x).
Proof.
  intros T A X m xs st x st' lns prints s tr H Hf Hg Hxs Hx final.
  unfold bind at 1 in H. destruct (m st) as [[[y l1] st1]| | |] eqn:E1; cbn [obind] in H; try discriminate.
  unfold bind at 1 in H. unfold print_in_order in H. unfold bind at 1 in H.
  cbn [scalar_const scalar_task fresh_fut issue submit interfering ln_reqs scalar_launch obind bind ret next_fut next_region app] in H.
  rewrite print_chain_eq in H. cbn [obind ret next_fut next_region] in H. injection H as <- <- <- <-. rewrite app_nil_r in *.
  set (nf := next_fut st1) in *. specialize (Hxs st1 l1 eq_refl). fold nf in Hxs.
  set (c0 := scalar_launch nf [] (fun _ : list T => a0 A)) in *.
  set (ch := chain_launches A nf (S nf) (xs y)) in *. set (len := length (xs y)). set (K := S (length l1)).
  assert (Ln : length ch = len) by apply chain_length.
  assert (El : l1 ++ c0 :: ch = (l1 ++ [c0]) ++ ch) by (rewrite <- app_assoc; reflexivity).
  assert (Hfin : forall l, final l = effect (l1 ++ c0 :: ch) s l) by (intros l; apply executions_equal_effect; assumption).
  (* the final value of print future i is the final value of scalar i *)
  assert (Hval : forall i f, nth_error (xs y) i = Some f -> final (LFut (S nf + i)) = final (LFut f)).
  { intros i f Hi. rewrite !Hfin, El, !effect_app. destruct (@chain_effect T A (xs y) nf (S nf) (effect [c0] (effect l1 s))) as [C1 C2].
    - intros g Hin. specialize (Hxs g Hin). lia.
    - fold ch in C1, C2. rewrite (C1 i f Hi). symmetry. apply C2. intros k Hk E. injection E as E. apply nth_error_In in Hi. specialize (Hxs f Hi). lia. }
  (* the print steps come in order *)
  destruct Hx as [rem [Hrun Hfinal]].
  assert (Hwd : Forall (@well_declared loc T) (map (@op_of T) (l1 ++ c0 :: ch))).
  { apply Forall_forall. intros o Ho. apply in_map_iff in Ho. destruct Ho as [ln [<- Hl]]. apply privileges_well_declared. rewrite Forall_forall in Hg. apply (Hg ln Hl). }
  assert (Ho : ordered tr) by (eapply partial_run_ordered; [exact Hrun|apply rem_ok_init; exact Hwd]).
  assert (Htag : forall a, In a tr -> fst a < K + len).
  { intros a Ha. apply (partial_run_tags Hrun) in Ha. rewrite !map_length, app_length in Ha. cbn [length] in Ha. rewrite Ln in Ha. unfold K. lia. }
  set (d0 := nth 0 (xs y) 0). set (stp := fun i => mk_step (LFut (S nf + i)) [LFut (nth i (xs y) 0); LFut (before nf (S nf) i)] (shows A)).
  assert (Hnth : forall i, i < len -> nth_error (l1 ++ c0 :: ch) (K + i) = Some (scalar_launch (S nf + i) [nth i (xs y) 0; before nf (S nf) i] (shows A))).
  { intros i Hi. rewrite nth_error_app2 by (unfold K; lia). replace (K + i - length l1) with (S i) by (unfold K; lia). cbn [nth_error].
    apply chain_nth. apply nth_error_nth'. exact Hi. }
  assert (Hp : forall i, i < len -> proj (K + i) tr = [stp i]).
  { intros i Hi. assert (I := partial_run_interleave Hrun Hfinal (K + i)). specialize (I [[stp i]]). apply interleave_single. apply I.
    rewrite nth_error_map_some, nth_error_map_some, (Hnth i Hi). reflexivity. }
  assert (Hd : forall i, S i < len -> ~ indep (stp (S i)) (stp i)).
  { intros i Hi [_ [_ N]]. apply N. cbn. right. left. reflexivity. }
  assert (Hshow : flat_map (print_of (seq (S nf) len)) (map snd tr) = seq (S nf) len).
  { assert (Hflt : flat_map (print_of (seq (S nf) len)) (map snd tr) = flat_map (print_of (seq (S nf) len)) (map snd (filter (tags_in K (K + pred len)) tr))).
    { assert (Hin : forall a, In a tr -> tags_in K (K + pred len) a = false -> print_of (seq (S nf) len) (snd a) = []).
      { intros [j a] Ha Ht. destruct (partial_run_in Hrun j a Ha) as [ts [t [Hn [H1 H2]]]]. rewrite nth_error_map_some, nth_error_map_some in Hn.
        destruct (nth_error (l1 ++ c0 :: ch) j) as [ln|] eqn:Ej; [|discriminate]. cbn in Hn. injection Hn as <-.
        assert (Hj := Htag _ Ha). cbn [fst] in Hj. unfold tags_in in Ht. cbn [fst] in Ht. assert (Hlt : j < K).
        { destruct (Nat.leb_spec K j); [|lia]. destruct (Nat.leb_spec j (K + pred len)); [discriminate|]. lia. }
        assert (Hdecl : declared_writes ln (tgt a)).
        { rewrite Forall_forall in Hwd. destruct (Hwd (op_of ln)) with (t := t) (st := a) as [W _]; [apply in_map; eapply nth_error_In; exact Ej|exact H1|exact H2|exact W]. }
        unfold print_of. cbn [snd]. destruct (tgt a) as [|n|]; try reflexivity. cbn in Hdecl.
        destruct (existsb (Nat.eqb n) (seq (S nf) len)) eqn:Ex; [|reflexivity]. apply existsb_exists in Ex. destruct Ex as [n' [Hn' En]]. apply Nat.eqb_eq in En. subst n'. apply in_seq in Hn'.
        exfalso. destruct (Nat.eq_dec j (length l1)) as [->|Nj].
        - rewrite nth_error_app2, Nat.sub_diag in Ej by lia. cbn in Ej. injection Ej as <-. cbn in Hdecl. injection Hdecl as Hdecl. lia.
        - rewrite nth_error_app1 in Ej by (unfold K in Hlt; lia). destruct (Hf _ _ _ _ E1) as [_ [_ Hr]]. specialize (Hr n). fold nf in Hr.
          assert (In n (results l1)); [|specialize (Hr H); lia]. unfold results. apply in_flat_map. exists ln. split; [eapply nth_error_In; exact Ej|]. rewrite Hdecl. left. reflexivity. }
      clear - Hin. induction tr as [|a tr IH]; [reflexivity|]. cbn [map flat_map filter].
      rewrite IH by (intros b Hb; apply Hin; right; exact Hb). destruct (tags_in K (K + pred len) a) eqn:Et; [reflexivity|]. rewrite (Hin a (or_introl eq_refl) Et). reflexivity. }
    rewrite Hflt. destruct (Nat.eq_dec len 0) as [E0|N0].
    - rewrite E0. cbn [seq Nat.pred]. clear. induction (map snd (filter (tags_in K (K + 0)) tr)) as [|a l IH]; [reflexivity|]. cbn [flat_map]. rewrite IH. unfold print_of. destruct (tgt a); reflexivity.
    - destruct (chain_in_order K stp Ho Hp Hd (i := pred len)) as [_ F]; [lia|]. rewrite F. replace (S (pred len)) with len by lia.
      assert (G : forall k, k <= len -> flat_map (print_of (seq (S nf) len)) (map stp (seq 0 k)) = seq (S nf) k).
      { induction k as [|k IH]; intros Hk; [reflexivity|]. rewrite !seq_S, map_app, flat_map_app, IH by lia. f_equal. cbn [map flat_map]. unfold print_of, stp. cbn [tgt Nat.add].
        replace (existsb (Nat.eqb (S (nf + k))) (seq (S nf) len)) with true; [reflexivity|]. symmetry. apply existsb_exists. exists (S (nf + k)). split; [apply in_seq; lia|apply Nat.eqb_refl]. }
      apply G. lia. }
  rewrite shown_final by (rewrite Hshow; apply seq_NoDup). rewrite Hshow. fold final.
  apply nth_ext with (d := a0 A) (d' := a0 A); [rewrite !map_length, seq_length; reflexivity|]. rewrite map_length, seq_length. intros i Hi.
  rewrite (nth_indep _ _ (final (LFut 0))) by (rewrite map_length, seq_length; exact Hi). rewrite (map_nth (fun n => final (LFut n))).
  rewrite (nth_indep (map _ (xs y)) _ (final (LFut 0))) by (rewrite map_length; exact Hi). rewrite (map_nth (fun n => final (LFut n)) (xs y)).
  rewrite seq_nth by exact Hi. apply Hval. apply nth_error_nth'. exact Hi.
Qed.

(** The same for a program known by its specification: [m] computes scalars with values [val], then prints them chained. *)
Theorem C78_prints_of_specified : forall (T : Type) (A : arith T) X (m : M T X) (xs : X -> list nat) (val : X -> list T) st s,
  fresh_results m ->
  wp m (fun x st1 s1 => (forall f, In f (xs x) -> f < next_fut st1) /\ map (fun f => s1 (LFut f)) (xs x) = val x) st s ->
  exists x prints lns st', (let* y := m in let* ns := print_in_order A (xs y) in ret (y, ns)) st = Ok ((x, prints), lns, st') /\
    (exists lns1 st1, m st = Ok (x, lns1, st1)) /\
    forall tr, execution (map (@op_of T) lns) tr -> shown prints (map snd tr) s = val x.
Proof.
  intros T A X m xs val st s Hf [x [l1 [st1 [Em [Hg1 [Hx Hv]]]]]].
  assert (EP : forall d st2, exists st3, print_chain A d (xs x) st2 = Ok (seq (next_fut st2) (length (xs x)), chain_launches A d (next_fut st2) (xs x), st3)).
  { intros d st2. eexists. apply print_chain_eq. }
  set (nf := next_fut st1) in *. set (c0 := scalar_launch nf [] (fun _ : list T => a0 A)). set (ch := chain_launches A nf (S nf) (xs x)).
  exists x, (seq (S nf) (length (xs x))), (l1 ++ c0 :: ch), (mk_ist (S nf + length (xs x)) (next_region st1)).
  assert (E : (let* y := m in let* ns := print_in_order A (xs y) in ret (y, ns)) st = Ok ((x, seq (S nf) (length (xs x))), l1 ++ c0 :: ch, mk_ist (S nf + length (xs x)) (next_region st1))).
  { unfold bind at 1. rewrite Em. cbn [obind]. unfold bind at 1, print_in_order. unfold bind at 1.
    cbn [scalar_const scalar_task fresh_fut issue submit interfering ln_reqs scalar_launch obind bind ret next_fut next_region app].
    rewrite print_chain_eq. cbn [obind ret next_fut next_region]. rewrite app_nil_r. reflexivity. }
  split; [exact E|]. split; [exists l1, st1; exact Em|]. intros tr Ht.
  assert (Hg : Forall good_launch (l1 ++ c0 :: ch)).
  { apply Forall_app. split; [exact Hg1|]. constructor; [apply scalar_launch_good|apply chain_good]. }
  assert (Hs := @C78_chained_prints T A X m xs st x _ _ _ s tr E Hf Hg). cbn beta zeta in Hs. rewrite Hs; [|intros st0 l0 E0; rewrite Em in E0; injection E0 as <- <-; exact Hx|exact Ht].
  rewrite <- Hv. apply map_ext_in. intros f Hin. rewrite (executions_equal_effect Hg Ht). change (c0 :: ch) with ([c0] ++ ch). rewrite !effect_app.
  destruct (@chain_effect T A (xs x) nf (S nf) (effect [c0] (effect l1 s))) as [_ C2]; [intros g Hg'; specialize (Hx g Hg'); fold nf in Hx; lia|].
  fold ch in C2. rewrite C2.
  - rewrite effect_one. cbn. unfold exec, upd. cbn [tgt]. destruct (loc_dec (LFut f) (LFut nf)) as [e|]; [|reflexivity]. injection e as e. specialize (Hx f Hin). fold nf in Hx. lia.
  - intros k Hk e. injection e as e. specialize (Hx f Hin). fold nf in Hx. lia.
Qed.

(** Straight-line scalar programs: whatever the schedule, the lines shown are the values of the variables as computed directly in the entry type, in
    the order of the print statements. *)
Theorem C78_program_prints : forall (T : Type) (A : arith T) (p : list (stmt T)) (vars : list nat) (env : nat -> nat) (st : ist) (s : store loc T),
  (forall x, env x < next_fut st) ->
  exists env' prints lns st',
    (let* e := issue_prog A env p in let* ns := print_in_order A (map e vars) in ret (e, ns)) st = Ok ((env', prints), lns, st') /\
    forall tr, execution (map (@op_of T) lns) tr ->
      shown prints (map snd tr) s = map (direct_prog A (fun y => s (LFut (env y))) p) vars.
Proof.
  intros T A p vars env st s He. assert (W := @issue_prog_spec T A p env st s He).
  destruct (@C78_prints_of_specified T A _ (issue_prog A env p) (fun e => map e vars) (fun _ => map (direct_prog A (fun y => s (LFut (env y))) p) vars) st s) as [e [prints [lns [st' [E [_ H]]]]]].
  - apply issue_prog_fresh.
  - eapply wp_conseq; [exact W|]. intros e st1 s1 [H1 H2]. cbn beta. split.
    + intros f Hf. apply in_map_iff in Hf. destruct Hf as [x [<- _]]. apply H2.
    + rewrite map_map. apply map_ext. exact H1.
  - exists e, prints, lns, st'. split; [exact E|exact H].
Qed.

(** Without the chain, prints of ready values may appear in either order. *)
Theorem C78_unchained_any_order : forall (T : Type) (A : arith T) (a b : T) (st : ist) (s : store loc T),
  exists prints lns st',
    (let* x := scalar_const a in let* y := scalar_const b in print_each A [x; y]) st = Ok (prints, lns, st') /\
    (exists tr, execution (map (@op_of T) lns) tr /\ shown prints (map snd tr) s = [a; b]) /\
    (exists tr, execution (map (@op_of T) lns) tr /\ shown prints (map snd tr) s = [b; a]).
Proof.
  intros T A a b st s. set (n := next_fut st). do 3 eexists. split; [reflexivity|]. fold n. cbn [app].
  set (s0 := @mk_step loc T (LFut n) (map LFut []) (fun _ => a)). set (s1 := @mk_step loc T (LFut (S n)) (map LFut []) (fun _ => b)).
  set (s2 := @mk_step loc T (LFut (S (S n))) (map LFut [n]) (shows A)). set (s3 := @mk_step loc T (LFut (S (S (S n)))) (map LFut [S n]) (shows A)).
  assert (D : forall x y : nat, x <> y -> LFut x <> LFut y) by (intros x y Hxy E; apply Hxy; congruence).
  set (F := @nil (list (step loc T))). set (ops := map _ _).
  assert (Eops : map o_tasks ops = [[[s0]]; [[s1]]; [[s2]]; [[s3]]]) by reflexivity.
  assert (Hno : forall l, ~ (o_writes (nth 2 ops (mk_op [] (fun _ => False) (fun _ => False))) l /\ (o_reads (nth 3 ops (mk_op [] (fun _ => False) (fun _ => False))) l \/ o_writes (nth 3 ops (mk_op [] (fun _ => False) (fun _ => False))) l))).
  { intros l [Hl H]. destruct l; cbn in Hl, H.
    - destruct Hl as [q [[] _]].
    - injection Hl as <-. destruct H as [[H|[]]|H]; [|injection H as H]; lia.
    - destruct Hl. }
  assert (Z : forall (t : store loc T) (st : step loc T), exec loc_dec t st (tgt st) = fn st (map t (rds st))) by (intros t x; unfold exec, upd; destruct (loc_dec (tgt x) (tgt x)); [reflexivity|contradiction]).
  assert (Y : forall (t : store loc T) (st : step loc T) m, m <> tgt st -> exec loc_dec t st m = t m) by (intros t x m Hm; unfold exec, upd; destruct (loc_dec m (tgt x)); [contradiction|reflexivity]).
  assert (I0 : existsb (Nat.eqb n) [S (S n); S (S (S n))] = false).
  { cbn. rewrite !(proj2 (Nat.eqb_neq _ _)) by lia. reflexivity. }
  assert (I1 : existsb (Nat.eqb (S n)) [S (S n); S (S (S n))] = false).
  { cbn [existsb]. rewrite !(proj2 (Nat.eqb_neq _ _)) by lia. reflexivity. }
  assert (I2 : existsb (Nat.eqb (S (S n))) [S (S n); S (S (S n))] = true) by (cbn [existsb]; rewrite Nat.eqb_refl; reflexivity).
  assert (I3 : existsb (Nat.eqb (S (S (S n)))) [S (S n); S (S (S n))] = true) by (cbn [existsb]; rewrite Nat.eqb_refl, orb_true_r; reflexivity).
  split.
  - exists [(0, s0); (1, s1); (2, s2); (3, s3)]. split.
    + exists [[[]]; [[]]; [[]]; [[]]]. split; [|repeat constructor]. rewrite Eops.
      apply (@pr_step _ _ ops [] [] s0 [] [] [[[s1]]; [[s2]]; [[s3]]]); [intros i oi oj tsi H; cbn in H; lia|].
      apply (@pr_step _ _ ops [[[]]] [] s1 [] [] [[[s2]]; [[s3]]]).
      { intros [|i] oi oj tsi H _ _ _ H2; cbn in H; [|lia]. injection H2 as <-. repeat constructor. }
      apply (@pr_step _ _ ops [[[]]; [[]]] [] s2 [] [] [[[s3]]]).
      { intros [|[|i]] oi oj tsi H _ _ _ H2; cbn in H; try lia; injection H2 as <-; repeat constructor. }
      apply (@pr_step _ _ ops [[[]]; [[]]; [[]]] [] s3 [] [] []).
      { intros [|[|[|i]]] oi oj tsi H _ _ _ H2; cbn in H; try lia; injection H2 as <-; repeat constructor. }
      constructor.
    + cbn [map snd shown tgt s0 s1 s2 s3 next_fut next_region]. rewrite I0, I1, I2, I3. cbn [app]. f_equal; [|f_equal].
      * change (LFut (S (S n))) with (tgt s2). rewrite Z. cbn [s2 fn rds map shows]. rewrite Y by (apply D; cbn; lia). change (LFut n) with (tgt s0). rewrite Z. reflexivity.
      * change (LFut (S (S (S n)))) with (tgt s3). rewrite Z. cbn [s3 fn rds map shows]. rewrite Y by (apply D; cbn; lia). change (LFut (S n)) with (tgt s1). rewrite Z. reflexivity.
  - exists [(0, s0); (1, s1); (3, s3); (2, s2)]. split.
    + exists [[[]]; [[]]; [[]]; [[]]]. split; [|repeat constructor]. rewrite Eops.
      apply (@pr_step _ _ ops [] [] s0 [] [] [[[s1]]; [[s2]]; [[s3]]]); [intros i oi oj tsi H; cbn in H; lia|].
      apply (@pr_step _ _ ops [[[]]] [] s1 [] [] [[[s2]]; [[s3]]]).
      { intros [|i] oi oj tsi H _ _ _ H2; cbn in H; [|lia]. injection H2 as <-. repeat constructor. }
      apply (@pr_step _ _ ops [[[]]; [[]]; [[s2]]] [] s3 [] [] []).
      { intros [|[|[|i]]] oi oj tsi H Hi Hj Hc H2; cbn in H; try lia; injection H2 as <-; try (repeat constructor; fail).
        exfalso. injection Hi as <-. injection Hj as <-. destruct Hc as [l [Hc|Hc]]; [apply (Hno l Hc)|]. destruct Hc as [H1 H2].
        destruct l; cbn in H1, H2.
        - destruct H1 as [q [[] _]].
        - injection H2 as <-. destruct H1 as [H1|[]]. lia.
        - destruct H1. }
      apply (@pr_step _ _ ops [[[]]; [[]]] [] s2 [] [] [[[]]]).
      { intros [|[|i]] oi oj tsi H _ _ _ H2; cbn in H; try lia; injection H2 as <-; repeat constructor. }
      constructor.
    + cbn [map snd shown tgt s0 s1 s2 s3 next_fut next_region]. rewrite I0, I1, I2, I3. cbn [app]. f_equal; [|f_equal].
      * change (LFut (S (S (S n)))) with (tgt s3). rewrite Z. cbn [s3 fn rds map shows]. change (LFut (S n)) with (tgt s1). rewrite Z. reflexivity.
      * change (LFut (S (S n))) with (tgt s2). rewrite Z. cbn [s2 fn rds map shows]. rewrite !Y by (apply D; cbn; lia). change (LFut n) with (tgt s0). rewrite Z. reflexivity.
Qed.

(** ** C79.  print_index_partition *)
Definition of_color (c : nat) (l : print_line) : bool := pl_color l =? c.
Lemma interleave_colors tasks out : interleave tasks out -> (forall i t l, nth_error tasks i = Some t -> In l t -> pl_color l = i) ->
  forall i t, nth_error tasks i = Some t -> filter (of_color i) out = t.
Proof.
  induction 1 as [ts Hn|ts1 a t ts2 tr H IH]; intros Hc i u Hi.
  - rewrite Forall_forall in Hn. rewrite (Hn u (nth_error_In _ _ Hi)). reflexivity.
  - assert (Ea : pl_color a = length ts1).
    { apply (Hc (length ts1) (a :: t) a); [|left; reflexivity]. rewrite nth_error_app2, Nat.sub_diag by lia. reflexivity. }
    assert (Hc' : forall i t' l, nth_error (ts1 ++ t :: ts2) i = Some t' -> In l t' -> pl_color l = i).
    { intros j t' l Hj Hl. destruct (Nat.eq_dec j (length ts1)) as [->|N].
      - rewrite nth_error_app2, Nat.sub_diag in Hj by lia. injection Hj as <-. apply (Hc _ (a :: t)); [|right; exact Hl]. rewrite nth_error_app2, Nat.sub_diag by lia. reflexivity.
      - apply (Hc j t'); [|exact Hl]. destruct (Nat.lt_ge_cases j (length ts1)) as [L|L].
        + rewrite nth_error_app1 in * by exact L. exact Hj.
        + rewrite nth_error_app2 in * by lia. destruct (j - length ts1) eqn:Ed; [lia|exact Hj]. }
    cbn [filter]. unfold of_color at 1. rewrite Ea. destruct (Nat.eqb_spec (length ts1) i) as [<-|N].
    + rewrite nth_error_app2, Nat.sub_diag in Hi by lia. injection Hi as <-. f_equal. apply IH; [exact Hc'|]. rewrite nth_error_app2, Nat.sub_diag by lia. reflexivity.
    + apply IH; [exact Hc'|]. destruct (Nat.lt_ge_cases i (length ts1)) as [L|L].
      * rewrite nth_error_app1 in * by exact L. exact Hi.
      * rewrite nth_error_app2 in * by lia. destruct (i - length ts1) eqn:Ed; [lia|exact Hi].
Qed.
Lemma interleave_in X (tasks : list (list X)) out : interleave tasks out -> forall x, In x out <-> exists t, In t tasks /\ In x t.
Proof.
  induction 1 as [ts Hn|ts1 a t ts2 tr H IH]; intros x.
  - split; [intros []|]. intros [t [Ht Hx]]. rewrite Forall_forall in Hn. rewrite (Hn t Ht) in Hx. destruct Hx.
  - cbn [In]. rewrite IH. split.
    + intros [<-|[u [Hu Hx]]].
      * exists (a :: t). split; [apply in_or_app; right; left; reflexivity|left; reflexivity].
      * apply in_app_or in Hu. destruct Hu as [Hu|[<-|Hu]]; [exists u|exists (a :: t)|exists u]; (split; [apply in_or_app|]); auto; [right; left; reflexivity|right; exact Hx|right; right; exact Hu].
    + intros [u [Hu Hx]]. apply in_app_or in Hu. destruct Hu as [Hu|[<-|Hu]].
      * right. exists u. split; [apply in_or_app; left; exact Hu|exact Hx].
      * destruct Hx as [<-|Hx]; [left; reflexivity|right]. exists t. split; [apply in_or_app; right; left; reflexivity|exact Hx].
      * right. exists u. split; [apply in_or_app; right; right; exact Hu|exact Hx].
Qed.

Lemma nodup_by_color (out : list print_line) : (forall c, NoDup (filter (of_color c) out)) -> NoDup out.
Proof.
  induction out as [|l out IH]; intros H; [constructor|]. constructor.
  - intros Hl. specialize (H (pl_color l)). cbn [filter] in H. unfold of_color at 1 in H. rewrite Nat.eqb_refl in H. inversion H as [|? ? Hn _]. subst. apply Hn.
    apply filter_In. split; [exact Hl|]. apply Nat.eqb_refl.
  - apply IH. intros c. specialize (H c). cbn [filter] in H. destruct (of_color c l); [inversion H; assumption|exact H].
Qed.
(** When the colour space and the partitioned space have the same type: the heading gives the number of pieces, and whatever the interleaving of the
    point tasks' output, the lines of colour [c] are exactly the points of piece [c] in iteration order, and no other line is shown; so every
    (colour, point) pair is shown once. *)
Theorem C79_partition_shown : forall lg (space_type : nat -> nat) q, legion_ok lg -> space_type (part_colors lg q) = space_type (part_parent lg q) ->
  exists tasks, print_index_partition lg space_type q = Ok (length (part_pieces lg q), tasks) /\
  forall out, interleave tasks out ->
    (forall c piece, nth_error (part_pieces lg q) c = Some piece -> map pl_point (filter (of_color c) out) = piece) /\
    (forall l, In l out -> exists piece, nth_error (part_pieces lg q) (pl_color l) = Some piece /\ In (pl_point l) piece) /\
    NoDup out.
Proof.
  intros lg ty q Hlg Ht. unfold print_index_partition. rewrite Ht, Nat.eqb_refl. eexists. split; [reflexivity|].
  set (P := part_pieces lg q). intros out Ho.
  assert (Hn : forall c, nth_error (map (fun cp => print_index_task (fst cp) (snd cp)) (combine (seq 0 (length P)) P)) c = option_map (print_index_task c) (nth_error P c)).
  { intros c. rewrite nth_error_map_some. assert (G : forall k (l : list (list point)) c, nth_error (combine (seq k (length l)) l) c = option_map (fun x => (k + c, x)) (nth_error l c)).
    { intros k l. revert k. induction l as [|x l IH]; intros k [|c']; cbn; try reflexivity; [rewrite Nat.add_0_r; reflexivity|]. rewrite IH. destruct (nth_error l c'); cbn; [|reflexivity]. do 2 f_equal. lia. }
    rewrite G. destruct (nth_error P c); reflexivity. }
  set (tasks := map _ _) in *.
  assert (Hc : forall i t l, nth_error tasks i = Some t -> In l t -> pl_color l = i).
  { intros i t l Hi Hl. rewrite Hn in Hi. destruct (nth_error P i) as [piece|]; [|discriminate]. injection Hi as <-. apply in_map_iff in Hl. destruct Hl as [p [<- _]]. reflexivity. }
  assert (H1 : forall c piece, nth_error P c = Some piece -> filter (of_color c) out = map (mk_print_line c) piece).
  { intros c piece H. apply (interleave_colors Ho Hc). rewrite Hn, H. reflexivity. }
  assert (H2 : forall l, In l out -> exists piece, nth_error P (pl_color l) = Some piece /\ In (pl_point l) piece).
  { intros l Hl. apply (interleave_in Ho) in Hl. destruct Hl as [t [Ht' Hl]]. apply In_nth_error in Ht'. destruct Ht' as [i Hi]. rewrite (Hc i t l Hi Hl). rewrite Hn in Hi.
    destruct (nth_error P i) as [piece|]; [|discriminate]. injection Hi as <-. exists piece. split; [reflexivity|]. apply in_map_iff in Hl. destruct Hl as [p [<- Hp]]. exact Hp. }
  split; [|split; [exact H2|]].
  - intros c piece H. rewrite (H1 c piece H), map_map. apply map_id.
  - apply nodup_by_color. intros c. destruct (nth_error P c) as [piece|] eqn:Ep.
    + rewrite (H1 c piece Ep). destruct Hlg as [_ Hp]. destruct (Hp q piece (nth_error_In _ _ Ep)) as [Hnd _].
      apply FinFun.Injective_map_NoDup; [intros x y E; injection E as E; exact E|exact Hnd].
    + rewrite filter_none; [constructor|]. intros l Hl. destruct (H2 l Hl) as [piece [Hp _]]. unfold of_color. apply Nat.eqb_neq. intros E. rewrite E, Ep in Hp. discriminate.
Qed.

(** The task variant is chosen by the type of the COLOUR space but iterates over pieces of the PARENT space: when the two types differ (for example a
    two-dimensional vector partitioned by a one-dimensional colour space, which every other operation of the library accepts) the call is an error. *)
Theorem C79_needs_same_type : forall lg (space_type : nat -> nat) q, space_type (part_colors lg q) <> space_type (part_parent lg q) ->
  print_index_partition lg space_type q = UB.
Proof. intros lg ty q H. unfold print_index_partition. rewrite (proj2 (Nat.eqb_neq _ _) H). reflexivity. Qed.

(** ** Non-trivial instances *)
(** x = 3; y = x + x; print y then x: the lines are 6, 3 in some (hence, by C78_program_prints, every) execution *)
Example C78_example : forall (T : Type) (A : arith T) (c : T) (s : store loc T),
  let p := [Assign 0 (Const c); Assign 1 (Add (Var 0) (Var 0))] in
  exists env' prints lns st' tr,
    (let* e := issue_prog A (fun _ => 0) p in let* ns := print_in_order A (map e [1; 0]) in ret (e, ns)) (mk_ist 1 0) = Ok ((env', prints), lns, st') /\
    execution (map (@op_of T) lns) tr /\ shown prints (map snd tr) s = [aadd A c c; c].
Proof.
  intros T A c s p. destruct (@C78_program_prints T A p [1; 0] (fun _ => 0) (mk_ist 1 0) s) as [env' [prints [lns [st' [E H]]]]]; [intros _; cbn; lia|].
  destruct (execution_exists (map (@op_of T) lns)) as [tr Ht]. exists env', prints, lns, st', tr. split; [exact E|]. split; [exact Ht|]. rewrite (H tr Ht). reflexivity.
Qed.
(** a 6-point space with 2 pieces *)
Example C79_example : exists tasks, print_index_partition lg6 (fun _ => 0) 2 = Ok (2, tasks) /\ length (concat tasks) = 6 /\
  print_index_partition lg6 (fun s => s) 2 = UB.
Proof. eexists. split; [reflexivity|]. split; reflexivity. Qed.
