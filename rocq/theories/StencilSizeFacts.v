(** StencilSizeFacts: calculate_stencil_size counts exactly the in-bounds pairs. *)
From Verif Require Import Base Index IndexSpec IndexFacts Outcome StencilSize StencilSpec.
Local Open Scope Z_scope.

Section S.
Variable E : Type.
Implicit Types offs : list (point * E).

Definition cnt (l h : point) offs : Z :=
  Z.of_nat (length (flat_map (fun p => filter (fun oe => contains_aux l h (padd p (fst oe))) offs) (box_points_aux l h))).

Lemma cnt_pairs b offs : Z.of_nat (length (in_bounds_pairs b offs)) = cnt (lo b) (hi b) offs.
Proof.
  unfold in_bounds_pairs, cnt, box_points_rm, contains. f_equal.
  induction (box_points_aux (lo b) (hi b)) as [|p L IH]; simpl; [reflexivity|].
  rewrite filter_app, !app_length, IH. f_equal.
  rewrite filter_map_comm, map_length. reflexivity.
Qed.

Definition zsum (f : Z -> Z) (L : list Z) : Z := fold_right (fun x a => f x + a) 0 L.
Lemma zsum_app f L1 L2 : zsum f (L1 ++ L2) = zsum f L1 + zsum f L2.
Proof. induction L1 as [|a L1 IH]; simpl; [reflexivity|]. unfold zsum in *. simpl. lia. Qed.
Lemma zsum_ext f g L : (forall x, In x L -> f x = g x) -> zsum f L = zsum g L.
Proof.
  induction L as [|a L IH]; intros H; simpl; [reflexivity|]. unfold zsum in *.
  rewrite (H a) by (left; reflexivity). rewrite IH; [reflexivity|]. intros x Hx; apply H; right; exact Hx.
Qed.
Lemma zsum_const c L : zsum (fun _ => c) L = Z.of_nat (length L) * c.
Proof. induction L as [|a L IH]; [reflexivity|]. simpl length. unfold zsum in *. cbn [fold_right]. rewrite IH. lia. Qed.
Lemma zsum_plus f g L : zsum (fun x => f x + g x) L = zsum f L + zsum g L.
Proof. induction L as [|a L IH]; simpl; [reflexivity|]. unfold zsum in *. simpl. lia. Qed.

Definition dims (n : nat) offs := Forall (fun oe => length (fst oe) = n) offs.

Lemma sub_offsets_dims n l0 h0 i offs : dims (S n) offs -> dims n (sub_offsets l0 h0 i offs).
Proof.
  unfold dims, sub_offsets. rewrite !Forall_forall. intros H x Hx. apply in_flat_map in Hx.
  destruct Hx as [oe [Hin Hx]]. specialize (H oe Hin).
  destruct ((l0 <=? i + hd 0 (fst oe)) && (i + hd 0 (fst oe) <=? h0)); [|destruct Hx].
  destruct Hx as [<-|[]]. simpl. destruct (fst oe); simpl in *; lia.
Qed.

Lemma filter_sub l0 h0 l h x p offs n : dims (S n) offs ->
  length (filter (fun oe => contains_aux (l0 :: l) (h0 :: h) (padd (x :: p) (fst oe))) offs) =
  length (filter (fun oe => contains_aux l h (padd p (fst oe))) (sub_offsets l0 h0 x offs)).
Proof.
  intros Hd. set (f := fun oe : point * E => contains_aux (l0 :: l) (h0 :: h) (padd (x :: p) (fst oe))).
  set (g := fun oe : point * E => contains_aux l h (padd p (fst oe))).
  induction Hd as [|[o e] offs Ho Hd IH]; [reflexivity|].
  unfold sub_offsets in *. cbn [flat_map filter]. rewrite filter_app, app_length, <- IH.
  destruct o as [|o0 o]; [simpl in Ho; discriminate|]. cbn [fst snd hd tl].
  assert (Ef : f (o0 :: o, e) = (l0 <=? x + o0) && (x + o0 <=? h0) && g (o, e)) by reflexivity.
  rewrite Ef. destruct ((l0 <=? x + o0) && (x + o0 <=? h0)); cbn [andb filter length]; [|reflexivity].
  destruct (g (o, e)); reflexivity.
Qed.

Lemma cnt_cons l0 h0 l h offs n : dims (S n) offs ->
  cnt (l0 :: l) (h0 :: h) offs = zsum (fun i => cnt l h (sub_offsets l0 h0 i offs)) (zrange l0 h0).
Proof.
  intros Hd. unfold cnt. cbn [box_points_aux].
  induction (zrange l0 h0) as [|x L IH]; [reflexivity|].
  cbn [flat_map zsum fold_right]. rewrite flat_map_app_f, app_length, Nat2Z.inj_add.
  unfold zsum in IH. rewrite IH. f_equal. f_equal.
  rewrite flat_map_map. rewrite !flat_map_length_sum. clear IH.
  induction (box_points_aux l h) as [|p B IHB]; [reflexivity|]. cbn [fold_right].
  rewrite IHB. f_equal. eapply filter_sub. exact Hd.
Qed.

Lemma cnt_nil l h : cnt l h [] = 0.
Proof. unfold cnt. rewrite flat_map_nil; [reflexivity|]. intros; reflexivity. Qed.

(** ** one dimension *)
Lemma filter_zrange_length a b c d :
  Z.of_nat (length (filter (fun x => (a <=? x) && (x <=? b)) (zrange c d))) = Z.max 0 (Z.min b d - Z.max a c + 1).
Proof.
  rewrite (Permutation_length (l' := zrange (Z.max a c) (Z.min b d))).
  - rewrite zrange_length. lia.
  - apply NoDup_Permutation.
    + apply NoDup_filter, NoDup_zrange.
    + apply NoDup_zrange.
    + intros x. rewrite filter_In, !in_zrange, andb_true_iff, !Z.leb_le. lia.
Qed.

Lemma cnt_1d_cons l0 h0 oe offs : length (fst oe) = 1%nat ->
  cnt [l0] [h0] (oe :: offs) =
  (if Z.abs (hd 0 (fst oe)) <=? volume (mk_rect [l0] [h0]) then volume (mk_rect [l0] [h0]) - Z.abs (hd 0 (fst oe)) else 0)
  + cnt [l0] [h0] offs.
Proof.
  intros H. destruct oe as [[|o0 [|? ?]] e]; simpl in H; try discriminate. clear H. cbn [fst hd].
  assert (V : volume (mk_rect [l0] [h0]) = Z.max 0 (h0 - l0 + 1)).
  { unfold volume. simpl. destruct (h0 <? l0) eqn:C; lia. }
  rewrite V.
  assert (Hc : cnt [l0] [h0] (([o0], e) :: offs) =
     Z.of_nat (length (filter (fun x => (l0 <=? x + o0) && (x + o0 <=? h0)) (zrange l0 h0))) + cnt [l0] [h0] offs).
  { unfold cnt. simpl. induction (zrange l0 h0) as [|x L IH]; [reflexivity|].
    cbn [flat_map map app filter] in *. cbn [padd fst contains_aux] in *. rewrite andb_true_r.
    destruct ((l0 <=? x + o0) && (x + o0 <=? h0)); cbn [length app] in *; rewrite !app_length; lia. }
  rewrite Hc. f_equal.
  rewrite (filter_ext_in2 (fun x => (l0 <=? x + o0) && (x + o0 <=? h0)) (fun x => (l0 - o0 <=? x) && (x <=? h0 - o0))).
  - rewrite filter_zrange_length. destruct (Z.abs o0 <=? Z.max 0 (h0 - l0 + 1)) eqn:C; lia.
  - intros x _. f_equal; apply Bool.eq_iff_eq_true; rewrite !Z.leb_le; lia.
Qed.

Lemma stencil_size_1d_correct l0 h0 offs : dims 1 offs -> stencil_size_1d l0 h0 offs = cnt [l0] [h0] offs.
Proof.
  intros Hd. unfold stencil_size_1d.
  set (g := fun oe : point * E => if Z.abs (hd 0 (fst oe)) <=? volume (mk_rect [l0] [h0])
                    then volume (mk_rect [l0] [h0]) - Z.abs (hd 0 (fst oe)) else 0).
  assert (G : forall a, fold_left (fun result (oe : point * E) =>
     if Z.abs (hd 0 (fst oe)) <=? volume (mk_rect [l0] [h0]) then result + (volume (mk_rect [l0] [h0]) - Z.abs (hd 0 (fst oe))) else result) offs a
     = a + cnt [l0] [h0] offs).
  { induction Hd as [|oe offs Ho Hd IH]; intros a.
    - simpl fold_left. rewrite cnt_nil. lia.
    - cbn [fold_left]. rewrite IH. rewrite cnt_1d_cons by exact Ho.
      destruct (Z.abs (hd 0 (fst oe)) <=? volume (mk_rect [l0] [h0])); lia. }
  rewrite G. lia.
Qed.

(** ** min/max *)
Lemma min_offset_spec offs :
  (forall oe, In oe offs -> min_offset offs <= hd 0 (fst oe)) /\ min_offset offs <= 0 /\
  (min_offset offs = 0 \/ exists oe, In oe offs /\ hd 0 (fst oe) = min_offset offs).
Proof.
  unfold min_offset.
  assert (G : forall offs a, let m := fold_left (fun m (oe : point * E) => Z.min m (hd 0 (fst oe))) offs a in
    (forall oe, In oe offs -> m <= hd 0 (fst oe)) /\ m <= a /\ (m = a \/ exists oe, In oe offs /\ hd 0 (fst oe) = m)).
  { clear. induction offs as [|oe offs IH]; intros a; simpl.
    - split; [intros oe []|]. split; [lia|left; reflexivity].
    - destruct (IH (Z.min a (hd 0 (fst oe)))) as (H1 & H2 & H3). repeat split.
      + intros x [<-|Hx]; [lia|auto].
      + lia.
      + destruct H3 as [H3|[x [Hx Hm]]].
        * destruct (Z.min_spec a (hd 0 (fst oe))) as [[? Hm]|[? Hm]]; rewrite Hm in *.
          -- left. exact H3.
          -- right. exists oe. split; [left; reflexivity|]. rewrite H3. reflexivity.
        * right. exists x. split; [right; exact Hx|exact Hm]. }
  apply G.
Qed.
Lemma max_offset_spec offs :
  (forall oe, In oe offs -> hd 0 (fst oe) <= max_offset offs) /\ 0 <= max_offset offs /\
  (max_offset offs = 0 \/ exists oe, In oe offs /\ hd 0 (fst oe) = max_offset offs).
Proof.
  unfold max_offset.
  assert (G : forall offs a, let m := fold_left (fun m (oe : point * E) => Z.max m (hd 0 (fst oe))) offs a in
    (forall oe, In oe offs -> hd 0 (fst oe) <= m) /\ a <= m /\ (m = a \/ exists oe, In oe offs /\ hd 0 (fst oe) = m)).
  { clear. induction offs as [|oe offs IH]; intros a; simpl.
    - split; [intros oe []|]. split; [lia|left; reflexivity].
    - destruct (IH (Z.max a (hd 0 (fst oe)))) as (H1 & H2 & H3). repeat split.
      + intros x [<-|Hx]; [lia|auto].
      + lia.
      + destruct H3 as [H3|[x [Hx Hm]]].
        * destruct (Z.max_spec a (hd 0 (fst oe))) as [[? Hm]|[? Hm]]; rewrite Hm in *.
          -- right. exists oe. split; [left; reflexivity|]. rewrite H3. reflexivity.
          -- left. exact H3.
        * right. exists x. split; [right; exact Hx|exact Hm]. }
  apply G.
Qed.

Definition all_in (l0 h0 i : Z) offs := forall oe, In oe offs -> l0 <= i + hd 0 (fst oe) <= h0.

Lemma sub_offsets_length_le l0 h0 i offs : (length (sub_offsets l0 h0 i offs) <= length offs)%nat.
Proof.
  unfold sub_offsets. induction offs as [|oe offs IH]; cbn [flat_map length]; [lia|]. rewrite app_length.
  destruct ((l0 <=? i + hd 0 (fst oe)) && (i + hd 0 (fst oe) <=? h0)); cbn [length]; lia.
Qed.

Lemma sub_offsets_all l0 h0 i offs :
  (length (sub_offsets l0 h0 i offs) =? length offs)%nat = true <-> all_in l0 h0 i offs.
Proof.
  rewrite Nat.eqb_eq. unfold all_in. induction offs as [|oe offs IH]; [simpl; split; [intros _ ? []|reflexivity]|].
  pose proof (sub_offsets_length_le l0 h0 i offs) as Hle. unfold sub_offsets in *. cbn [flat_map length]. rewrite app_length.
  destruct ((l0 <=? i + hd 0 (fst oe)) && (i + hd 0 (fst oe) <=? h0)) eqn:C; cbn [length].
  - apply andb_prop in C. split.
    + intros H x [<-|Hx]; [lia|]. apply IH; [lia|exact Hx].
    + intros H. cbn [plus]. f_equal. apply IH. intros x Hx. apply H. right; exact Hx.
  - split; [intros H; lia|]. intros H. exfalso. specialize (H oe (or_introl eq_refl)).
    apply andb_false_iff in C. destruct C; lia.
Qed.

Lemma sub_offsets_all_eq l0 h0 i offs : all_in l0 h0 i offs ->
  sub_offsets l0 h0 i offs = map (fun oe : point * E => (tl (fst oe), snd oe)) offs.
Proof.
  unfold all_in. induction offs as [|oe offs IH]; intros H; simpl; [reflexivity|].
  rewrite (proj2 (andb_true_iff _ _)).
  - simpl. f_equal. apply IH. intros x Hx. apply H. right; exact Hx.
  - specialize (H oe (or_introl eq_refl)). lia.
Qed.

(** ** the slice loop *)
Section Loop.
Variables (sub : list (point * E) -> outcome Z) (g : list (point * E) -> Z) (l0 h0 : Z) (offs : list (point * E)) (n : nat).
Hypothesis Hdims : dims (S n) offs.
Hypothesis Hsub : forall o, dims n o -> sub o = Ok (g o).
Hypothesis Hne : offs <> [].

Let mn := min_offset offs.
Let mx := max_offset offs.
Let rest i := zsum (fun j => g (sub_offsets l0 h0 j offs)) (zrange i h0).

Lemma rest_step i : i <= h0 -> rest i = g (sub_offsets l0 h0 i offs) + rest (i + 1).
Proof. intros H. unfold rest. rewrite zrange_cons by exact H. reflexivity. Qed.

Lemma rest_end i : h0 < i -> rest i = 0.
Proof. intros H. unfold rest. rewrite zrange_nil by exact H. reflexivity. Qed.

(* after the fast path: no slice contains all offsets any more *)
Lemma loop_slow fuel i acc : (forall j, i <= j <= h0 -> ~ all_in l0 h0 j offs) ->
  (Z.to_nat (h0 - i + 1) < fuel)%nat ->
  slice_loop fuel sub l0 h0 mn mx offs i acc = Ok (acc + rest i).
Proof.
  revert i acc. induction fuel as [|f IH]; intros i acc Hno Hf; [lia|]. cbn [slice_loop].
  destruct (i <=? h0) eqn:Ci.
  - apply Z.leb_le in Ci.
    destruct ((length (sub_offsets l0 h0 i offs) =? length offs)%nat) eqn:Ca.
    + apply sub_offsets_all in Ca. exfalso. apply (Hno i); [lia|exact Ca].
    + rewrite Hsub by (eapply sub_offsets_dims; exact Hdims). cbn [obind].
      rewrite IH; [|intros j Hj; apply Hno; lia|lia]. rewrite (rest_step i) by exact Ci. f_equal. lia.
  - apply Z.leb_gt in Ci. rewrite rest_end by exact Ci. f_equal. lia.
Qed.

Lemma all_in_mx j : all_in l0 h0 j offs -> j <= h0 -> j + mx <= h0.
Proof.
  intros Ha Hj. unfold mx. destruct (max_offset_spec offs) as (_ & _ & [H|[oe [Hin H]]]); [lia|].
  specialize (Ha oe Hin). lia.
Qed.
Lemma all_in_mn j : all_in l0 h0 j offs -> l0 <= j -> l0 <= j + mn.
Proof.
  intros Ha Hj. unfold mn. destruct (min_offset_spec offs) as (_ & _ & [H|[oe [Hin H]]]); [lia|].
  specialize (Ha oe Hin). lia.
Qed.
Lemma mnmx_all_in j : l0 <= j + mn -> j + mx <= h0 -> all_in l0 h0 j offs.
Proof.
  intros H1 H2 oe Hin. unfold mn, mx in *.
  destruct (min_offset_spec offs) as (A & _ & _). destruct (max_offset_spec offs) as (B & _ & _).
  specialize (A oe Hin). specialize (B oe Hin). lia.
Qed.

Lemma loop_fast fuel i acc : l0 <= i <= l0 - mn ->
  (Z.to_nat (h0 - i + 1) < fuel)%nat ->
  slice_loop fuel sub l0 h0 mn mx offs i acc = Ok (acc + rest i).
Proof.
  revert i acc. induction fuel as [|f IH]; intros i acc Hi Hf; [lia|]. cbn [slice_loop].
  destruct (i <=? h0) eqn:Ci.
  2:{ apply Z.leb_gt in Ci. rewrite rest_end by exact Ci. f_equal. lia. }
  apply Z.leb_le in Ci.
  destruct ((length (sub_offsets l0 h0 i offs) =? length offs)%nat) eqn:Ca.
  - apply sub_offsets_all in Ca.
    pose proof (all_in_mx i Ca Ci) as Hmx. pose proof (all_in_mn i Ca ltac:(lia)) as Hmn.
    assert (Hi' : i = l0 - mn) by lia.
    destruct (max_offset_spec offs) as (_ & Hmx0 & _). fold mx in Hmx0.
    unfold oassert. rewrite (proj2 (Z.eqb_eq _ _)) by exact Hi'.
    destruct (h0 - mx >=? i) eqn:Cg; [|lia].
    rewrite Hsub by (eapply sub_offsets_dims; exact Hdims). cbn [obind].
    rewrite loop_slow.
    + unfold rest. rewrite (zrange_app (a := i) (b := h0 - mx) (c := h0)) by lia.
      rewrite zsum_app.
      rewrite (zsum_ext (fun j => g (sub_offsets l0 h0 j offs)) (fun _ => g (sub_offsets l0 h0 i offs)) (zrange i (h0 - mx))).
      * rewrite zsum_const, zrange_length. rewrite Z2Nat.id by lia. f_equal. lia.
      * intros j Hj. apply in_zrange in Hj. f_equal.
        rewrite !sub_offsets_all_eq; [reflexivity|exact Ca|]. apply mnmx_all_in; lia.
    + intros j Hj Hall. pose proof (all_in_mx j Hall ltac:(lia)). lia.
    + lia.
  - assert (Hnot : ~ all_in l0 h0 i offs) by (intros H; apply sub_offsets_all in H; congruence).
    rewrite Hsub by (eapply sub_offsets_dims; exact Hdims). cbn [obind].
    rewrite (rest_step i) by exact Ci.
    destruct (Z.eq_dec i (l0 - mn)) as [Heq|Hneq].
    + rewrite loop_slow; [f_equal; lia| |lia].
      intros j Hj Hall. apply Hnot. apply mnmx_all_in; [lia|].
      pose proof (all_in_mx j Hall ltac:(lia)). lia.
    + rewrite IH by lia. f_equal. lia.
Qed.
End Loop.

Definition extent_bound (l h : point) (fuel : nat) : Prop :=
  forall i, (i < length l)%nat -> (Z.to_nat (nth i h 0%Z - nth i l 0%Z + 1) < fuel)%nat.

Lemma stencil_size_aux_correct fuel l h offs : l <> [] -> length l = length h -> dims (length l) offs ->
  extent_bound l h fuel -> stencil_size_aux fuel l h offs = Ok (cnt l h offs).
Proof.
  revert h offs. induction l as [|l0 l IH]; intros [|h0 h] offs Hne Hlen Hd Hf; simpl in Hlen; try discriminate; [congruence|].
  cbn [stencil_size_aux]. destruct offs as [|oe offs]; [rewrite cnt_nil; reflexivity|].
  destruct l as [|l1 l].
  - destruct h; [|discriminate]. f_equal. apply stencil_size_1d_correct. exact Hd.
  - set (os := oe :: offs) in *.
    rewrite (loop_fast (stencil_size_aux fuel (l1 :: l) h) (cnt (l1 :: l) h) l0 h0 os (length (l1 :: l))).
    + rewrite (cnt_cons l0 h0 (l1 :: l) h os (length (l1 :: l)) Hd). reflexivity.
    + exact Hd.
    + intros o Ho. apply IH; [discriminate|lia|exact Ho|].
      intros i Hi. apply (Hf (S i)). simpl in *. lia.
    + destruct (min_offset_spec os) as (_ & H & _). lia.
    + apply (Hf 0%nat). simpl. lia.
Qed.

Lemma calculate_stencil_size_correct fuel b offs :
  lo b <> [] -> wf_box b -> offsets_dim b offs -> extent_bound (lo b) (hi b) fuel ->
  calculate_stencil_size fuel b offs = Ok (Z.of_nat (length (in_bounds_pairs b offs))).
Proof.
  intros H1 H2 H3 H4. rewrite cnt_pairs. apply stencil_size_aux_correct; assumption.
Qed.
End S.

(** more fuel does not change a computation that did not run out of it *)
Lemma slice_loop_mono E (sub sub' : list (point * E) -> outcome Z) l0 h0 mn mx offs :
  (forall o, sub o <> OutOfFuel -> sub' o = sub o) ->
  forall f f' i r, slice_loop f sub l0 h0 mn mx offs i r <> OutOfFuel -> (f <= f')%nat ->
  slice_loop f' sub' l0 h0 mn mx offs i r = slice_loop f sub l0 h0 mn mx offs i r.
Proof.
  intros Hs. induction f as [|f IH]; intros [|f'] i r H Hf; try (exfalso; apply H; reflexivity); try lia.
  cbn [slice_loop] in *. destruct (i <=? h0); [|reflexivity].
  assert (Hsub : sub (sub_offsets l0 h0 i offs) = OutOfFuel \/ sub' (sub_offsets l0 h0 i offs) = sub (sub_offsets l0 h0 i offs)).
  { destruct (sub (sub_offsets l0 h0 i offs)) eqn:Q; try (right; rewrite <- Q; apply Hs; congruence). left; reflexivity. }
  destruct (length (sub_offsets l0 h0 i offs) =? length offs)%nat.
  - destruct (i =? l0 - mn); cbn [oassert] in *; [|reflexivity].
    destruct (h0 - mx >=? i); cbn [oassert] in *; [|reflexivity].
    destruct Hsub as [Q|Q]; [rewrite Q in H; exfalso; apply H; reflexivity|]. rewrite Q.
    destruct (sub (sub_offsets l0 h0 i offs)) as [z| | |]; cbn [obind] in *; try reflexivity. apply IH; [exact H|lia].
  - destruct Hsub as [Q|Q]; [rewrite Q in H; exfalso; apply H; reflexivity|]. rewrite Q.
    destruct (sub (sub_offsets l0 h0 i offs)) as [z| | |]; cbn [obind] in *; try reflexivity. apply IH; [exact H|lia].
Qed.
Lemma stencil_size_aux_mono E f f' l h (offs : list (point * E)) :
  stencil_size_aux f l h offs <> OutOfFuel -> (f <= f')%nat -> stencil_size_aux f' l h offs = stencil_size_aux f l h offs.
Proof.
  intros H Hf. revert h offs H. induction l as [|l0 l IH]; intros [|h0 h] offs H; try reflexivity.
  cbn [stencil_size_aux] in *. destruct offs as [|oe offs]; [reflexivity|]. destruct l as [|l1 l]; [reflexivity|].
  eapply slice_loop_mono; [|exact H|exact Hf]. intros o Ho. apply IH. exact Ho.
Qed.
Lemma extent_bound_exists l h : exists F, forall fuel, (F <= fuel)%nat -> extent_bound l h fuel.
Proof.
  revert h. induction l as [|l0 l IH]; intros h.
  - exists 0%nat. intros fuel _ i Hi. simpl in Hi. lia.
  - destruct (IH (tl h)) as [F HF]. exists (Nat.max F (S (Z.to_nat (hd 0 h - l0 + 1)))). intros fuel Hf [|i] Hi.
    + destruct h; simpl in *; lia.
    + simpl. specialize (HF fuel ltac:(lia) i). destruct h as [|h0 h]; simpl in *; [destruct i; apply HF; lia|apply HF; lia].
Qed.
Lemma calculate_stencil_size_any E fuel b (offs : list (point * E)) :
  lo b <> [] -> wf_box b -> offsets_dim b offs -> calculate_stencil_size fuel b offs <> OutOfFuel ->
  calculate_stencil_size fuel b offs = Ok (Z.of_nat (length (in_bounds_pairs b offs))).
Proof.
  intros H1 H2 H3 H. destruct (extent_bound_exists (lo b) (hi b)) as [F HF].
  rewrite <- (calculate_stencil_size_correct E (Nat.max fuel F)); try assumption; [|apply HF; lia].
  symmetry. apply stencil_size_aux_mono; [exact H|lia].
Qed.
