(** StencilSkip: the slice-skipping, early-exit CSR fill task writes what the plain pass writes (C27). *)
From Verif Require Import Base Index IndexSpec IndexFacts Outcome Sched StencilFill StencilFillFacts StencilSpec.
Local Open Scope Z_scope.

Section Skip.
Variable E : Type.
Variables (l0 h0 : Z) (l h : point) (offs : list (point * E)) (mdom rdom : dom1).
Let b := mk_rect (l0 :: l) (h0 :: h).
Let enc (q : point) : point := [linearize_row_major b q].
Let lin := linearize_row_major b.
Let rd (p : point) : bool := dmem rdom (hd 0 p).
Let W := csr_W b offs enc (dmem mdom) rd.
Let N := pass b offs W.
Let cnt (L : list point) : Z := Z.of_nat (length (all_entries b offs L)).
Let B := box_points_aux l h.
Let S_ (x : Z) := map (cons x) B.
Let rest (x : Z) := flat_map S_ (zrange x h0).
Let K (x : Z) := cnt (flat_map S_ (zrange l0 (x - 1))).
Let lb := fst (leading_dimension_bounds offs).
Let ub := snd (leading_dimension_bounds offs).
Let V := volume_aux l h.
Let total := cnt (box_points_rm b).

Hypothesis Hne : nonempty_aux l h.
Hypothesis H0 : l0 <= h0.
Hypothesis Hd : Forall (fun oe : point * E => length (fst oe) = S (length l)) offs.
Hypothesis Hm : forall k, dmem mdom k = true -> dlo mdom <= k <= dhi mdom.
Hypothesis Hr : forall k, dmem rdom k = true -> dlo rdom <= k <= dhi rdom.
Hypothesis Hend : dlo mdom <= total \/ dlo rdom <= volume b.

Lemma N_app L1 L2 k : N (L1 ++ L2) k = N L1 k ++ N L2 (k + cnt L1).
Proof. apply pass_app. Qed.
Lemma cnt_app L1 L2 : cnt (L1 ++ L2) = cnt L1 + cnt L2.
Proof. unfold cnt. rewrite all_entries_app, app_length. lia. Qed.
Lemma cnt_nonneg L : 0 <= cnt L. Proof. unfold cnt. lia. Qed.

Lemma rest_cons x : x <= h0 -> rest x = S_ x ++ rest (x + 1).
Proof. intros H. unfold rest. rewrite zrange_cons by exact H. reflexivity. Qed.
Lemma rest_nil : rest (h0 + 1) = [].
Proof. unfold rest. rewrite zrange_nil by lia. reflexivity. Qed.
Lemma K_succ x : l0 <= x -> K (x + 1) = K x + cnt (S_ x).
Proof.
  intros H. unfold K. replace (x + 1 - 1) with x by lia.
  rewrite (zrange_app (a := l0) (b := x - 1) (c := x)) by lia. rewrite flat_map_app_f, cnt_app.
  replace (x - 1 + 1) with x by lia. rewrite (zrange_cons (a := x)) by lia. rewrite (zrange_nil (a := x + 1)) by lia.
  cbn [flat_map]. rewrite app_nil_r. reflexivity.
Qed.
Lemma K_l0 : K l0 = 0.
Proof. unfold K. rewrite zrange_nil by lia. reflexivity. Qed.
Lemma K_end : K (h0 + 1) = total.
Proof. unfold K, total. replace (h0 + 1 - 1) with h0 by lia. reflexivity. Qed.
Lemma K_mono x y : l0 <= x <= y -> K x <= K y.
Proof.
  intros H. assert (G : forall n, K x <= K (x + Z.of_nat n)).
  { induction n as [|n IH]; [replace (x + Z.of_nat 0) with x by lia; lia|].
    replace (x + Z.of_nat (S n)) with (x + Z.of_nat n + 1) by lia. rewrite K_succ by lia.
    pose proof (cnt_nonneg (S_ (x + Z.of_nat n))). lia. }
  specialize (G (Z.to_nat (y - x))). replace (x + Z.of_nat (Z.to_nat (y - x))) with y in G by lia. exact G.
Qed.

(** leading bounds *)
Lemma leading_bounds_spec : lb <= 0 /\ 0 <= ub /\ forall oe, In oe offs -> lb <= hd 0 (fst oe) <= ub.
Proof.
  unfold lb, ub, leading_dimension_bounds.
  assert (G : forall (os : list (point * E)) a c,
    fst (fold_left leading_step os (a, c)) <= a /\ c <= snd (fold_left leading_step os (a, c)) /\
    forall oe, In oe os -> fst (fold_left leading_step os (a, c)) <= hd 0 (fst oe) <= snd (fold_left leading_step os (a, c))).
  { induction os as [|oe os IH]; intros a c.
    - simpl. split; [lia|]. split; [lia|]. intros oe [].
    - cbn [fold_left]. unfold leading_step at 2 4 6 8.
      set (a' := if hd 0 (fst oe) <? a then hd 0 (fst oe) else a).
      set (c' := if hd 0 (fst oe) >? c then hd 0 (fst oe) else c).
      assert (A : a' <= a /\ a' <= hd 0 (fst oe)).
      { unfold a'. destruct (hd 0 (fst oe) <? a) eqn:Q; lia. }
      assert (C : c <= c' /\ hd 0 (fst oe) <= c').
      { unfold c'. destruct (hd 0 (fst oe) >? c) eqn:Q; lia. }
      destruct (IH a' c') as (I1 & I2 & I3). split; [lia|]. split; [lia|].
      intros oe' [<-|Hin]; [lia|apply I3; exact Hin]. }
  destruct (G offs 0 0) as (G1 & G2 & G3). split; [exact G1|]. split; [exact G2|exact G3].
Qed.

Definition bulk (x : Z) : Prop := l0 <= x + lb /\ x + ub <= h0.
Lemma in_bulk_iff x t : in_bulk b offs (x :: t) = true <-> bulk x.
Proof. unfold in_bulk, bulk. cbn [hd lo hi b]. rewrite andb_true_iff. fold lb ub. lia. Qed.
Lemma bulk_range x : bulk x -> l0 <= x <= h0.
Proof. pose proof leading_bounds_spec. unfold bulk. lia. Qed.

(** all bulk slices hold the same number of entries *)
Definition tail_count (t : point) : nat :=
  length (filter (fun oe : point * E => contains_aux l h (padd t (tl (fst oe)))) offs).
Lemma bulk_row_count_gen (os : list (point * E)) x t a c :
  Forall (fun oe : point * E => length (fst oe) = S (length l)) os ->
  (forall oe, In oe os -> a <= hd 0 (fst oe) <= c) -> l0 <= x + a -> x + c <= h0 ->
  length (row_entries b os (x :: t)) =
  length (filter (fun oe : point * E => contains_aux l h (padd t (tl (fst oe)))) os).
Proof.
  intros Ho Hin H1 H2. unfold row_entries.
  induction os as [|[o e] os IH]; [reflexivity|]. cbn [flat_map filter fst snd].
  inversion Ho as [|? ? Hd1 Hd2]; subst. cbn [fst] in Hd1. destruct o as [|o0 o]; [discriminate|]. cbn [tl].
  change (padd (x :: t) (o0 :: o)) with (x + o0 :: padd t o).
  assert (In0 : a <= o0 <= c) by (apply (Hin (o0 :: o, e)); left; reflexivity).
  change (contains b (x + o0 :: padd t o)) with
    ((l0 <=? x + o0) && (x + o0 <=? h0) && contains_aux l h (padd t o)).
  rewrite (proj2 (Z.leb_le l0 (x + o0))) by lia. rewrite (proj2 (Z.leb_le (x + o0) h0)) by lia. cbn [andb].
  rewrite app_length, IH; [|exact Hd2|intros oe Hoe; apply Hin; right; exact Hoe].
  destruct (contains_aux l h (padd t o)); cbn [length]; lia.
Qed.
Lemma bulk_row_count x t : bulk x -> length (row_entries b offs (x :: t)) = tail_count t.
Proof.
  intros [H1 H2]. destruct leading_bounds_spec as (_ & _ & L3).
  apply (bulk_row_count_gen offs x t lb ub Hd L3 H1 H2).
Qed.
Lemma bulk_slice_count x y : bulk x -> bulk y -> cnt (S_ x) = cnt (S_ y).
Proof.
  intros Hx Hy. unfold cnt, S_. f_equal.
  assert (G : forall T, length (all_entries b offs (map (cons x) T)) = length (all_entries b offs (map (cons y) T))).
  { induction T as [|t T IH]; [reflexivity|]. cbn [map]. rewrite !all_entries_cons, !app_length, !map_length, IH.
    rewrite !bulk_row_count by assumption. reflexivity. }
  apply G.
Qed.

(** linearisation *)
Lemma lin_cons x t : length t = length l -> lin (x :: t) = (x - l0) * V + fst (linearize_row_major_aux t l h).
Proof. intros H. unfold lin, linearize_row_major. cbn [lo hi b]. apply linearize_rm_cons; assumption. Qed.
Lemma lin_tail_range t : In t B -> length t = length l /\ 0 <= fst (linearize_row_major_aux t l h) < V.
Proof.
  intros Ht. assert (Hlen : length l = length h) by (apply nonempty_aux_iff in Hne; tauto).
  assert (Hb : in_box (mk_rect l h) t) by (apply (in_box_points_rm (mk_rect l h)); [exact Hlen|exact Ht]).
  split; [destruct Hb as [Hb _]; exact Hb|].
  apply (linearize_range ROW_MAJOR (mk_rect l h) t Hb).
Qed.
Lemma V_pos : 0 < V. Proof. apply nonempty_volume. exact Hne. Qed.
Lemma B_hd : exists B', B = l :: B'.
Proof. apply box_points_aux_hd. exact Hne. Qed.
Lemma l_in_B : In l B. Proof. destruct B_hd as [B' ->]. left; reflexivity. Qed.
Lemma lin_l_zero : fst (linearize_row_major_aux l l h) = 0.
Proof.
  assert (Hlen : length l = length h) by (apply nonempty_aux_iff in Hne; tauto).
  clear -Hlen. revert h Hlen. induction l as [|a l' IH]; intros [|c h'] Hlen; simpl in *; try discriminate; [reflexivity|].
  specialize (IH h' ltac:(lia)). destruct (linearize_row_major_aux l' l' h') as [r a']. simpl in *. subst r. lia.
Qed.
Lemma lin_start x : lin (x :: l) = (x - l0) * V.
Proof. rewrite lin_cons by reflexivity. rewrite lin_l_zero. lia. Qed.
Lemma volume_b : volume b = (h0 - l0 + 1) * V.
Proof. unfold volume, b, V. cbn [lo hi volume_aux]. destruct (h0 <? l0) eqn:Q; [lia|reflexivity]. Qed.

(** a pass whose kernel positions and rows are all outside the piece writes nothing *)
Lemma N_nil L k :
  (forall j, k <= j < k + cnt L -> dmem mdom j = false) ->
  (forall p, In p L -> dmem rdom (lin p) = false) -> N L k = [].
Proof.
  revert k. induction L as [|p L IH]; intros k Hk Hp; [reflexivity|].
  assert (Ec : cnt (p :: L) = Z.of_nat (length (row_entries b offs p)) + cnt L).
  { unfold cnt. rewrite all_entries_cons, app_length, map_length. lia. }
  unfold N. cbn [pass]. unfold N in IH. rewrite IH.
  - rewrite app_nil_r. unfold W, csr_W. unfold rd, enc at 2. cbn [hd]. fold lin. rewrite Hp by (left; reflexivity).
    rewrite app_nil_r.
    assert (G : forall (es : list (point * E)) k', k <= k' -> k' + Z.of_nat (length es) <= k + Z.of_nat (length (row_entries b offs p)) ->
       emits (emit_csr enc (dmem mdom)) k' es = []).
    { induction es as [|[c e] es IHl]; intros k' H1 H2; [reflexivity|]. cbn [emits fst snd]. unfold emit_csr at 1.
      pose proof (cnt_nonneg L). cbn [length] in H2. rewrite Hk by lia. cbn [app]. apply IHl; lia. }
    apply G; lia.
  - intros j Hj. apply Hk. lia.
  - intros q Hq. apply Hp. right; exact Hq.
Qed.

Lemma in_S x p : In p (S_ x) <-> exists t, In t B /\ p = x :: t.
Proof. unfold S_. rewrite in_map_iff. split; intros [t Ht]; exists t; intuition. Qed.
Lemma in_rest x p : In p (rest x) <-> exists y t, x <= y <= h0 /\ In t B /\ p = y :: t.
Proof.
  unfold rest. rewrite in_flat_map. split.
  - intros [y [Hy Hp]]. apply in_zrange in Hy. apply in_S in Hp. destruct Hp as [t [Ht ->]]. exists y, t. auto.
  - intros [y [t (Hy & Ht & ->)]]. exists y. split; [apply in_zrange; exact Hy|apply in_S; exists t; auto].
Qed.

(** what remains after an early exit writes nothing *)
Lemma N_after L k q : (forall p, In p L -> lin q < lin p) -> k > dhi mdom -> lin q > dhi rdom -> N L k = [].
Proof.
  intros HL Hk Hq. apply N_nil.
  - intros j Hj. destruct (dmem mdom j) eqn:Q; [|reflexivity]. apply Hm in Q. lia.
  - intros p Hp. destruct (dmem rdom (lin p)) eqn:Q; [|reflexivity]. apply Hr in Q. specialize (HL p Hp). lia.
Qed.

Definition after (f : nat) (st : point * Z * Z * bool) : outcome (list (wstep E)) :=
  let '(p1, k1, origin1, found1) := st in
  let point_lin := linearize_row_major b p1 in
  let row_begin := k1 in
  let '(ws, k2) := row_loop b (emit_csr (fun q => [linearize_row_major b q]) (dmem mdom)) offs p1 k1 in
  let row_end := k2 - 1 in
  let ws1 := ws ++ (if dmem rdom point_lin then [wr (LRowptr [point_lin]) (CRect row_begin row_end)] else []) in
  if (k2 >? dhi mdom) && (point_lin >? dhi rdom) then Ok ws1
  else
    let '(q, more) := increment_row_major b p1 in
    if more then do r <- lin_csr_loop b offs mdom rdom f q k2 origin1 found1; Ok (ws1 ++ r) else Ok ws1.

Lemma lin_csr_loop_unfold f p k origin found :
  lin_csr_loop b offs mdom rdom (S f) p k origin found =
  do st <- prologue b offs mdom rdom (S f) p k origin found; after f st.
Proof. reflexivity. Qed.

Lemma after_body f p k origin found :
  after f (p, k, origin, found) =
  let k2 := k + Z.of_nat (length (row_entries b offs p)) in
  if (k2 >? dhi mdom) && (lin p >? dhi rdom) then Ok (W p k)
  else let '(q, more) := increment_row_major b p in
       if more then do r <- lin_csr_loop b offs mdom rdom f q k2 origin found; Ok (W p k ++ r) else Ok (W p k).
Proof. unfold after. rewrite row_loop_spec. reflexivity. Qed.

(** from a point inside slice x to its end *)
Lemma mid T : forall t x k f origin found,
  chain (fun p => increment_row_major_aux p l h) (t :: T) l ->
  Forall (fun t' => all_equal t' l = false) T ->
  StronglySorted (fun p q => lin p < lin q) (map (cons x) (t :: T) ++ rest (x + 1)) ->
  l0 <= x <= h0 ->
  k + cnt (map (cons x) (t :: T)) = K (x + 1) ->
  (length (t :: T) <= S f)%nat ->
  (x < h0 -> lin_csr_loop b offs mdom rdom (f - length T) ((x + 1) :: l) (K (x + 1)) origin found = Ok (N (rest (x + 1)) (K (x + 1)))) ->
  after f (x :: t, k, origin, found) = Ok (N (map (cons x) (t :: T) ++ rest (x + 1)) k).
Proof.
  induction T as [|t' T IH]; intros t x k f origin found Hc HT Hs Hx Hk Hf Hnext; rewrite after_body; cbv zeta.
  - cbn [map app] in *. cbn [length] in *.
    assert (Ek : k + Z.of_nat (length (row_entries b offs (x :: t))) = K (x + 1)).
    { rewrite <- Hk. unfold cnt. rewrite all_entries_cons, app_length, map_length. cbn. lia. }
    inversion Hs as [|? ? Hs1 Hs2]; subst. rewrite Forall_forall in Hs2.
    assert (EN : N ((x :: t) :: rest (x + 1)) k = W (x :: t) k ++ N (rest (x + 1)) (K (x + 1))).
    { unfold N. cbn [pass]. rewrite Ek. reflexivity. }
    rewrite EN. destruct ((k + Z.of_nat (length (row_entries b offs (x :: t))) >? dhi mdom) && (lin (x :: t) >? dhi rdom)) eqn:Q.
    + apply andb_prop in Q. destruct Q as [Q1 Q2]. rewrite (N_after (rest (x + 1)) (K (x + 1)) (x :: t)); [rewrite app_nil_r; reflexivity|exact Hs2|lia|lia].
    + simpl in Hc. unfold increment_row_major. cbn [lo hi b increment_row_major_aux]. rewrite Hc.
      destruct (x >=? h0) eqn:Qx.
      * assert (x = h0) by lia. subst x. rewrite rest_nil. unfold N. cbn [pass]. rewrite app_nil_r. reflexivity.
      * rewrite Ek. replace (f - 0)%nat with f in Hnext by lia. rewrite Hnext by lia. reflexivity.
  - rewrite chain_cons2 in Hc. destruct Hc as [Hc1 Hc2].
    inversion HT as [|? ? HT1 HT2]; subst.
    cbn [map app] in Hs. inversion Hs as [|? ? Hs1 Hs2]; subst. rewrite Forall_forall in Hs2.
    set (k2 := k + Z.of_nat (length (row_entries b offs (x :: t)))).
    assert (EN : N (map (cons x) (t :: t' :: T) ++ rest (x + 1)) k = W (x :: t) k ++ N (map (cons x) (t' :: T) ++ rest (x + 1)) k2) by reflexivity.
    rewrite EN.
    destruct ((k2 >? dhi mdom) && (lin (x :: t) >? dhi rdom)) eqn:Q.
    + apply andb_prop in Q. destruct Q as [Q1 Q2]. rewrite (N_after _ k2 (x :: t)); [rewrite app_nil_r; reflexivity|exact Hs2|lia|lia].
    + unfold increment_row_major. cbn [lo hi b increment_row_major_aux]. rewrite Hc1.
      destruct f as [|f]; [cbn [length] in Hf; lia|]. rewrite lin_csr_loop_unfold.
      unfold prologue, tail_equal. cbn [tl lo b]. rewrite HT1. cbn [obind].
      rewrite (IH t' x k2 f origin found Hc2 HT2 Hs1 Hx); [reflexivity| | |].
      * rewrite <- Hk. unfold k2, cnt. cbn [map]. rewrite (all_entries_cons E b offs (x :: t)), app_length, map_length. lia.
      * cbn [length] in *. lia.
      * intros Hlt. cbn [length] in Hnext. replace (f - length T)%nat with (S f - S (length T))%nat by lia. apply Hnext. exact Hlt.
Qed.

Definition disabled (x origin : Z) : Prop :=
  x + ub > h0 \/ K x + (K x - origin) >= dlo mdom \/ lin (x + 1 :: l) >= dlo rdom.

Lemma disabled_succ x origin : l0 <= x -> disabled x origin -> disabled (x + 1) origin.
Proof.
  intros Hx [H|[H|H]]; unfold disabled.
  - left. lia.
  - right; left. pose proof (K_mono x (x + 1)). lia.
  - right; right. rewrite lin_start in *. pose proof V_pos. nia.
Qed.

Definition Inv (x origin : Z) (found : bool) : Prop :=
  found = true -> exists xb, l0 <= xb < x /\ bulk xb /\ origin = K xb /\ (x = xb + 1 \/ disabled x origin).

(** skipping a slice loses nothing *)
Lemma skipped_slice x xb : l0 <= x -> bulk x -> bulk xb -> K x + cnt (S_ xb) < dlo mdom -> lin (x + 1 :: l) < dlo rdom ->
  N (S_ x) (K x) = [].
Proof.
  intros Hx Hb Hbb H1 H2. apply N_nil.
  - intros j Hj. destruct (dmem mdom j) eqn:Q; [|reflexivity]. apply Hm in Q.
    rewrite (bulk_slice_count x xb Hb Hbb) in Hj. lia.
  - intros p Hp. apply in_S in Hp. destruct Hp as [t [Ht ->]]. destruct (dmem rdom (lin (x :: t))) eqn:Q; [|reflexivity].
    apply Hr in Q. destruct (lin_tail_range t Ht) as [L1 L2]. rewrite lin_start in H2. rewrite lin_cons in Q by exact L1. nia.
Qed.

Lemma skip_loop_spec xb : bulk xb -> forall n x fuel, l0 <= x <= h0 -> xb < x -> n = Z.to_nat (h0 - x) ->
  (Z.to_nat (h0 - x) + 1 < fuel)%nat ->
  exists x', x <= x' <= h0 /\
    skip_loop b offs mdom rdom fuel (cnt (S_ xb)) (x :: l) (K x) = Ok (x' :: l, K x') /\
    N (rest x) (K x) = N (rest x') (K x') /\
    (x' + ub > h0 \/ K x' + cnt (S_ xb) >= dlo mdom \/ lin (x' + 1 :: l) >= dlo rdom).
Proof.
  intros Hbb. induction n as [|n IH]; intros x fuel Hx Hxb Hn Hf;
    (destruct fuel as [|f]; [lia|]); cbn [skip_loop]; change (increment_head (x :: l)) with (x + 1 :: l); fold lin;
    destruct (in_bulk b offs (x :: l) && (K x + cnt (S_ xb) <? dlo mdom) && (lin (x + 1 :: l) <? dlo rdom)) eqn:Q.
  - exfalso. apply andb_prop in Q. destruct Q as [Q Q3]. apply andb_prop in Q. destruct Q as [Q1 Q2].
    apply in_bulk_iff in Q1. assert (x = h0) by lia. subst x.
    pose proof (K_succ h0 ltac:(lia)) as Ks. rewrite K_end in Ks. rewrite (bulk_slice_count h0 xb Q1 Hbb) in Ks.
    rewrite lin_start in Q3. rewrite volume_b in Hend. destruct Hend; [lia|]. replace (h0 + 1 - l0) with (h0 - l0 + 1) in Q3 by lia. lia.
  - exists x. split; [lia|]. split; [reflexivity|]. split; [reflexivity|].
    apply andb_false_iff in Q. destruct Q as [Q|Q]; [|right; right; lia].
    apply andb_false_iff in Q. destruct Q as [Q|Q]; [|right; left; lia].
    left. destruct (Z_gt_le_dec (x + ub) h0) as [G|G]; [exact G|]. exfalso.
    assert (C : in_bulk b offs (x :: l) = true); [|congruence]. apply in_bulk_iff. unfold bulk in *. lia.
  - apply andb_prop in Q. destruct Q as [Q Q3]. apply andb_prop in Q. destruct Q as [Q1 Q2]. apply in_bulk_iff in Q1.
    assert (Ks : K x + cnt (S_ xb) = K (x + 1)) by (rewrite K_succ by lia; rewrite (bulk_slice_count x xb Q1 Hbb); reflexivity).
    rewrite Ks. destruct (IH (x + 1) f) as [x' (I1 & I2 & I3 & I4)]; try lia.
    exists x'. split; [lia|]. split; [exact I2|]. split; [|exact I4].
    rewrite rest_cons by lia. rewrite N_app. rewrite (skipped_slice x xb); try assumption; try lia.
    cbn [app]. rewrite <- I3. rewrite K_succ by lia. reflexivity.
  - exists x. split; [lia|]. split; [reflexivity|]. split; [reflexivity|].
    apply andb_false_iff in Q. destruct Q as [Q|Q]; [|right; right; lia].
    apply andb_false_iff in Q. destruct Q as [Q|Q]; [|right; left; lia].
    left. destruct (Z_gt_le_dec (x + ub) h0) as [G|G]; [exact G|]. exfalso.
    assert (C : in_bulk b offs (x :: l) = true); [|congruence]. apply in_bulk_iff. unfold bulk in *. lia.
Qed.

Lemma all_equal_refl p : all_equal p p = true.
Proof. induction p as [|x p IH]; [reflexivity|]. cbn. rewrite Z.eqb_refl. exact IH. Qed.
Lemma all_equal_eq p q : length p = length q -> all_equal p q = true -> p = q.
Proof.
  revert q. induction p as [|x p IH]; intros [|y q] Hl H; simpl in *; try discriminate; [reflexivity|].
  destruct (x =? y) eqn:Q; [|discriminate]. cbn in H. f_equal; [lia|]. apply IH; [lia|exact H].
Qed.

Lemma suffix_sorted x : l0 <= x <= h0 + 1 -> StronglySorted (fun p q => lin p < lin q) (rest x).
Proof.
  intros Hx. assert (Hn : nonempty_box b) by (apply nonempty_box_aux; split; assumption).
  assert (Full : StronglySorted (fun p q => lin p < lin q) (box_points_rm b)).
  { assert (G : forall L, StronglySorted Z.lt (map lin L) -> StronglySorted (fun p q => lin p < lin q) L).
    { induction L as [|p L IH]; intros H; [constructor|]. cbn in H. inversion H as [|? ? G1 G2]; subst. constructor; [apply IH; exact G1|].
      rewrite Forall_forall in *. intros q Hq. apply G2. apply in_map. exact Hq. }
    apply G. pose proof (map_linearize ROW_MAJOR b Hn) as ML. change (map lin (box_points_rm b) = zrange 0 (volume b - 1)) in ML. rewrite ML. apply zrange_sorted. }
  change (box_points_rm b) with (flat_map S_ (zrange l0 h0)) in Full.
  rewrite (zrange_app (a := l0) (b := x - 1) (c := h0)) in Full by lia.
  rewrite flat_map_app_f in Full. replace (x - 1 + 1) with x in Full by lia. fold (rest x) in Full.
  revert Full. generalize (flat_map S_ (zrange l0 (x - 1))). induction l1 as [|a l1 IH]; intros H; [exact H|].
  inversion H; subst. auto.
Qed.

Lemma slices n : forall x fuel origin found, l0 <= x <= h0 -> n = Z.to_nat (h0 - x) ->
  (Z.to_nat (h0 - x + 1) * length B + 1 <= fuel)%nat ->
  Inv x origin found ->
  lin_csr_loop b offs mdom rdom fuel (x :: l) (K x) origin found = Ok (N (rest x) (K x)).
Proof.
  induction n as [n IHn] using lt_wf_ind. intros x fuel origin found Hx Hn Hf HI.
  destruct B_hd as [B' HB].
  assert (HBlen : (1 <= length B)%nat) by (rewrite HB; simpl; lia).
  destruct fuel as [|f]; [lia|]. rewrite lin_csr_loop_unfold.
  assert (Hsteps : (Z.to_nat (h0 - x) + 1 < S f)%nat) by nia.
  (* processing slice x' once the prologue has settled on it *)
  assert (Proc : forall x' origin' found', x <= x' <= h0 -> Inv (x' + 1) origin' found' ->
     after f (x' :: l, K x', origin', found') = Ok (N (rest x') (K x'))).
  { intros x' origin' found' Hx' HI'. rewrite rest_cons by lia. unfold S_. rewrite HB.
    apply (mid B' l x' (K x') f origin' found').
    - pose proof (chain_row_major l h) as C. assert (Hlen : length l = length h) by (apply nonempty_aux_iff in Hne; tauto).
      specialize (C Hlen). rewrite clamp_hi_nonempty in C by exact Hne. fold B in C. rewrite HB in C. exact C.
    - apply Forall_forall. intros t Ht. destruct (all_equal t l) eqn:Q; [|reflexivity]. exfalso.
      assert (Hin : In t B) by (rewrite HB; right; exact Ht).
      destruct (lin_tail_range t Hin) as [L1 _]. apply all_equal_eq in Q; [|exact L1]. subst t.
      pose proof (NoDup_box_points_aux l h) as ND. fold B in ND. rewrite HB in ND. inversion ND; subst. contradiction.
    - rewrite <- HB. fold (S_ x'). rewrite <- rest_cons by lia. apply suffix_sorted. lia.
    - lia.
    - rewrite <- HB. fold (S_ x'). rewrite K_succ by lia. reflexivity.
    - rewrite <- HB. nia.
    - intros Hlt. apply (IHn (Z.to_nat (h0 - (x' + 1)))); try lia; [|exact HI'].
      assert (EB : length B = S (length B')) by (rewrite HB; reflexivity).
      replace (h0 - (x' + 1) + 1) with (h0 - x') by lia.
      assert (G : (Z.to_nat (h0 - x + 1) * length B >= Z.to_nat (h0 - x') * length B + length B)%nat).
      { replace (Z.to_nat (h0 - x') * length B + length B)%nat with ((Z.to_nat (h0 - x') + 1) * length B)%nat by ring.
        apply Nat.mul_le_mono_r. lia. }
      lia. }
  unfold prologue, tail_equal. cbn [tl lo b]. rewrite all_equal_refl.
  destruct found.
  - destruct (HI eq_refl) as [xb (Hxb1 & Hxb2 & Ho & Hor)].
    assert (Hsk : exists x', x <= x' <= h0 /\
      skip_loop b offs mdom rdom (S f) (K x - origin) (x :: l) (K x) = Ok (x' :: l, K x') /\
      N (rest x) (K x) = N (rest x') (K x') /\ disabled x' origin).
    { destruct Hor as [Hor|Hor].
      - assert (Es : K x - origin = cnt (S_ xb)) by (rewrite Ho, Hor, K_succ by lia; lia).
        rewrite Es. destruct (skip_loop_spec xb Hxb2 (Z.to_nat (h0 - x)) x (S f)) as [x' (I1 & I2 & I3 & I4)]; try lia.
        exists x'. split; [exact I1|]. split; [exact I2|]. split; [exact I3|]. unfold disabled.
        destruct I4 as [I4|[I4|I4]]; [left; exact I4| |right; right; exact I4].
        right; left. pose proof (K_mono (xb + 1) x' ltac:(lia)) as Mo. rewrite K_succ in Mo by lia. lia.
      - exists x. split; [lia|]. split; [|split; [reflexivity|exact Hor]]. cbn [skip_loop].
        change (increment_head (x :: l)) with (x + 1 :: l). fold lin.
        destruct (in_bulk b offs (x :: l) && (K x + (K x - origin) <? dlo mdom) && (lin (x + 1 :: l) <? dlo rdom)) eqn:Q; [|reflexivity].
        exfalso. apply andb_prop in Q. destruct Q as [Q Q3]. apply andb_prop in Q. destruct Q as [Q1 Q2].
        apply in_bulk_iff in Q1. unfold bulk in Q1. destruct Hor as [Hor|[Hor|Hor]]; lia. }
    destruct Hsk as [x' (I1 & I2 & I3 & I4)]. rewrite I2. cbn [obind negb andb]. rewrite I3.
    apply Proc; [lia|]. intros _. exists xb. split; [lia|]. split; [exact Hxb2|]. split; [exact Ho|].
    right. apply disabled_succ; [lia|exact I4].
  - cbn [obind negb andb]. destruct (in_bulk b offs (x :: l)) eqn:Q; cbn [obind].
    + apply in_bulk_iff in Q. apply Proc; [lia|]. intros _. exists x. split; [lia|]. split; [exact Q|]. split; [reflexivity|]. left; reflexivity.
    + apply Proc; [lia|]. intros C. discriminate.
Qed.

Lemma skip_main fuel : (Z.to_nat (volume b) + 1 <= fuel)%nat ->
  fill_linearized_csr_task fuel ROW_MAJOR b mdom rdom offs = Ok (N (box_points_rm b) 0).
Proof.
  intros Hf. unfold fill_linearized_csr_task. change (box_points_rm b) with (rest l0). rewrite <- K_l0.
  change (lo b) with (l0 :: l). pose proof K_l0 as K0.
  transitivity (lin_csr_loop b offs mdom rdom fuel (l0 :: l) (K l0) 0 false); [rewrite K0; reflexivity|].
  apply (slices (Z.to_nat (h0 - l0))); [lia|reflexivity| |intros C; discriminate].
  rewrite volume_b in Hf.
  assert (EB : Z.of_nat (length B) = V).
  { apply box_points_aux_length. apply nonempty_aux_iff in Hne. tauto. }
  pose proof V_pos. rewrite Z2Nat.inj_mul in Hf by lia. rewrite <- EB in Hf. rewrite Nat2Z.id in Hf. lia.
Qed.
End Skip.

(** The public form. *)
Lemma linearized_csr_skip_equals_plain (E : Type) fuel (b : rect) (mdom rdom : dom1) (offs : list (point * E)) :
  lo b <> [] -> nonempty_box b -> offsets_dim b offs ->
  (forall k, dmem mdom k = true -> dlo mdom <= k <= dhi mdom) ->
  (forall k, dmem rdom k = true -> dlo rdom <= k <= dhi rdom) ->
  dlo mdom <= Z.of_nat (length (all_entries b offs (box_points_rm b))) \/ dlo rdom <= volume b ->
  (Z.to_nat (volume b) + 1 <= fuel)%nat ->
  fill_linearized_csr_task fuel ROW_MAJOR b mdom rdom offs =
  Ok (pass b offs (csr_W b offs (fun q => [linearize_row_major b q]) (dmem mdom) (fun p => dmem rdom (hd 0 p)))
        (box_points_rm b) 0).
Proof.
  destruct b as [[|l0 l] [|h0 h]]; intros Hl Hn Hd Hm Hr Hend Hf; try (exfalso; apply Hl; reflexivity);
    try (destruct Hn as [Hn _]; simpl in Hn; discriminate).
  apply nonempty_box_aux in Hn. simpl in Hn. destruct Hn as [H0 Hne].
  apply (skip_main E l0 h0 l h offs mdom rdom Hne H0); try assumption.
Qed.
