(** StencilMachineFacts: under the fit conditions the machine arithmetic of StencilMachine.v never overflows and computes what the
    unbounded model computes. *)
From Verif Require Import Base Index IndexSpec IndexFacts Outcome Sched PartitionSpec StencilSize StencilSpec StencilSizeFacts StencilFill StencilFillFacts StencilCreate StencilMachine.
Set Implicit Arguments.
Local Open Scope Z_scope.

(** ** Specification: when everything fits *)
(** what is true of the integer types of C++: two's complement, COORD_T no wider than coord_t *)
Definition int_types_ok (I : int_types) : Prop := cmin I = - cmax I - 1 /\ 1 <= cmax I <= kmax I.
(** every coordinate of the grid is a COORD_T other than the largest, and so is every coordinate of a grid point plus an offset,
    whether inside the grid or not; the side lengths are COORD_T values; no offset has the most negative coordinate *)
Definition coordinates_fit {E} (I : int_types) (b : rect) (offsets : list (point * E)) : Prop :=
  (forall i, (i < length (lo b))%nat -> cmin I <= nth i (lo b) 0 /\ nth i (hi b) 0 < cmax I /\ nth i (hi b) 0 - nth i (lo b) 0 + 1 <= cmax I) /\
  (forall oe i, In oe offsets -> (i < length (lo b))%nat ->
     cmin I < nth i (fst oe) 0 <= cmax I /\ cmin I <= nth i (lo b) 0 + nth i (fst oe) 0 /\ nth i (hi b) 0 + nth i (fst oe) 0 <= cmax I).
(** so are four times the number of (grid point, offset) pairs in coord_t *)
Definition positions_fit {E} (I : int_types) (b : rect) (offsets : list (point * E)) : Prop :=
  4 * (Z.of_nat (length offsets) * volume b + 1) <= kmax I.

Section Facts.
Variable I : int_types.
Hypothesis HI : int_types_ok I.
Variable E : Type.
Implicit Types (offs : list (point * E)).

Lemma cc_ok z : cmin I <= z <= cmax I -> cc I z = Ok z.
Proof. intros H. unfold cc. rewrite !(proj2 (Z.leb_le _ _)) by lia. reflexivity. Qed.
Lemma cc_bad z : ~ (cmin I <= z <= cmax I) -> cc I z = UB.
Proof. intros H. unfold cc. destruct (cmin I <=? z) eqn:A; destruct (z <=? cmax I) eqn:B; cbn; try reflexivity. lia. Qed.
Lemma cc_inv z y : cc I z = Ok y -> y = z /\ cmin I <= z <= cmax I.
Proof. unfold cc. destruct (cmin I <=? z) eqn:A; destruct (z <=? cmax I) eqn:B; cbn; try discriminate. intros H. injection H as <-. lia. Qed.
Lemma kc_ok z : - kmax I - 1 <= z <= kmax I -> kc I z = Ok z.
Proof. intros H. unfold kc. rewrite !(proj2 (Z.leb_le _ _)) by lia. reflexivity. Qed.
Lemma sz_ok z : 0 <= z <= 2 * kmax I + 1 -> sz I z = z.
Proof. intros H. unfold sz. apply Z.mod_small. lia. Qed.

(** fit conditions along the dimensions *)
Fixpoint box_fits (l h : point) : Prop :=
  match l, h with
  | l0 :: l', h0 :: h' => (cmin I <= l0 <= h0 /\ h0 < cmax I /\ h0 - l0 + 1 <= cmax I) /\ box_fits l' h'
  | [], [] => True
  | _, _ => False
  end.
Fixpoint offset_fits (l h o : point) : Prop :=
  match l, h, o with
  | l0 :: l', h0 :: h', o0 :: o' => (cmin I < o0 <= cmax I /\ cmin I <= l0 + o0 /\ h0 + o0 <= cmax I) /\ offset_fits l' h' o'
  | [], [], [] => True
  | _, _, _ => False
  end.
Lemma box_fits_nonempty l h : box_fits l h -> nonempty_aux l h.
Proof. revert h. induction l as [|l0 l IH]; intros [|h0 h]; cbn; try tauto. intros [H1 H2]. split; [lia|apply IH; exact H2]. Qed.
Lemma fits_of b offs : nonempty_box b -> offsets_dim b offs -> coordinates_fit I b offs ->
  box_fits (lo b) (hi b) /\ forall oe, In oe offs -> offset_fits (lo b) (hi b) (fst oe).
Proof.
  intros [Hl Hn] Hd [H1 H2]. split.
  - clear H2 Hd. revert Hl Hn H1. generalize (lo b) as l. generalize (hi b) as h. intros h l. revert h. induction l as [|l0 l IH]; intros [|h0 h] Hl Hn H1; cbn in Hl; try discriminate; [exact Logic.I|].
    cbn. split.
    + specialize (Hn 0%nat ltac:(cbn; lia)). specialize (H1 0%nat ltac:(cbn; lia)). cbn in Hn, H1. lia.
    + apply IH; [lia| |].
      * intros i Hi. apply (Hn (S i)). cbn. lia.
      * intros i Hi. apply (H1 (S i)). cbn. lia.
  - intros oe Hin. unfold offsets_dim in Hd. rewrite Forall_forall in Hd. specialize (Hd oe Hin). specialize (H2 oe).
    assert (G : forall i, (i < length (lo b))%nat -> cmin I < nth i (fst oe) 0 <= cmax I /\ cmin I <= nth i (lo b) 0 + nth i (fst oe) 0 /\ nth i (hi b) 0 + nth i (fst oe) 0 <= cmax I) by (intros i Hi; apply H2; assumption).
    clear H1 H2 Hn Hin. revert Hl Hd G. generalize (lo b) as l. generalize (hi b) as h. generalize (fst oe) as o. intros o h l. revert h o.
    induction l as [|l0 l IH]; intros [|h0 h] [|o0 o] Hl Hd G; cbn in Hl, Hd; try discriminate; [exact Logic.I|]. cbn. split; [apply (G 0%nat); cbn; lia|].
    apply IH; [lia|lia|]. intros i Hi. apply (G (S i)). cbn. lia.
Qed.

(** *** points *)
Lemma m_padd_ok l h p o : contains_aux l h p = true -> offset_fits l h o -> m_padd I p o = Ok (padd p o).
Proof.
  revert h p o. induction l as [|l0 l IH]; intros [|h0 h] [|x p] [|o0 o] Hc Hf; cbn in Hc, Hf; try discriminate; try tauto.
  cbn [m_padd padd]. apply andb_prop in Hc. destruct Hc as [Hx Hc]. rewrite cc_ok by lia. cbn [obind]. rewrite (IH h p o Hc (proj2 Hf)). reflexivity.
Qed.
Lemma m_increment_row_ok l h p : box_fits l h -> contains_aux l h p = true -> m_increment_row_major_aux I p l h = Ok (increment_row_major_aux p l h).
Proof.
  revert h p. induction l as [|l0 l IH]; intros [|h0 h] [|x p] Hb Hc; cbn in Hc, Hb; try discriminate; try tauto.
  apply andb_prop in Hc. destruct Hc as [Hx Hc]. cbn [m_increment_row_major_aux increment_row_major_aux]. rewrite (IH h p (proj2 Hb) Hc). cbn [obind].
  destruct (increment_row_major_aux p l h) as [q m]. destruct m; [reflexivity|]. destruct (x >=? h0) eqn:A; [reflexivity|]. rewrite cc_ok by lia. reflexivity.
Qed.
Lemma m_increment_col_ok l h p : box_fits l h -> contains_aux l h p = true -> m_increment_column_major_aux I p l h = Ok (increment_column_major_aux p l h).
Proof.
  revert h p. induction l as [|l0 l IH]; intros [|h0 h] [|x p] Hb Hc; cbn in Hc, Hb; try discriminate; try tauto.
  apply andb_prop in Hc. destruct Hc as [Hx Hc]. cbn [m_increment_column_major_aux increment_column_major_aux]. destruct (x >=? h0) eqn:A.
  - rewrite (IH h p (proj2 Hb) Hc). cbn [obind]. destruct (increment_column_major_aux p l h). reflexivity.
  - rewrite cc_ok by lia. reflexivity.
Qed.
Lemma m_increment_ok o b p : box_fits (lo b) (hi b) -> in_box b p -> m_increment I o b p = Ok (increment o b p).
Proof. intros Hb Hp. apply contains_iff in Hp. destruct o; [apply m_increment_row_ok|apply m_increment_col_ok]; assumption. Qed.

(** *** linearisation *)
Lemma m_linearize_step_ok r a x l0 h0 : 0 <= r -> 1 <= a -> 0 <= x - l0 -> r + a * (x - l0) <= cmax I -> l0 <= h0 -> a * (h0 - l0 + 1) <= cmax I ->
  m_linearize_step I r a x l0 h0 = Ok (r + a * (x - l0), a * (h0 - l0 + 1)).
Proof.
  intros Hr Ha Hx Hs Hlh Hv. destruct HI as [H1 H2]. unfold m_linearize_step. assert (x - l0 <= a * (x - l0)) by nia. assert (h0 - l0 + 1 <= a * (h0 - l0 + 1)) by nia.
  repeat (rewrite cc_ok by lia; cbn [obind]). reflexivity.
Qed.
Lemma m_linearize_step_inv r a x l0 h0 r' a' : m_linearize_step I r a x l0 h0 = Ok (r', a') -> r' = r + a * (x - l0) /\ a' = a * (h0 - l0 + 1) /\ a' <= cmax I.
Proof.
  unfold m_linearize_step. intros H.
  repeat match type of H with context [obind (cc I ?z) _] => let F := fresh in let y := fresh in destruct (cc I z) as [y| | |] eqn:F; cbn [obind] in H; try discriminate H; apply cc_inv in F; destruct F as [-> F] end.
  injection H as <- <-. repeat split; auto; lia.
Qed.
Lemma m_linearize_row_ok l h p : nonempty_aux l h -> contains_aux l h p = true -> volume_aux l h <= cmax I ->
  m_linearize_row_major_aux I p l h = Ok (linearize_row_major_aux p l h) /\ 0 <= fst (linearize_row_major_aux p l h) < volume_aux l h.
Proof.
  revert h p. induction l as [|l0 l IH]; intros [|h0 h] [|x p] Hn Hc Hv; cbn in Hc, Hn; try discriminate; try tauto; [cbn; split; [reflexivity|lia]|].
  apply andb_prop in Hc. destruct Hc as [Hx Hc]. cbn [volume_aux] in *. destruct (h0 <? l0) eqn:A; [lia|].
  pose proof (nonempty_volume l h (proj2 Hn)) as Hp.
  destruct (IH h p (proj2 Hn) Hc ltac:(nia)) as [E1 E2]. cbn [m_linearize_row_major_aux linearize_row_major_aux]. rewrite E1. cbn [obind].
  pose proof (linearize_rm_acc p l h (proj1 (contains_aux_length l h p Hc)) (proj2 Hn)) as Ea.
  destruct (linearize_row_major_aux p l h) as [r a]. cbn [fst snd] in *. subst a.
  rewrite m_linearize_step_ok; try lia; try nia. split; [reflexivity|]. cbn [fst]. nia.
Qed.
(** the column-major loop *)
Lemma m_linearize_col_ok l h p r a : nonempty_aux l h -> contains_aux l h p = true -> 0 <= r < a -> a * volume_aux l h <= cmax I ->
  exists a', m_linearize_column_major_aux I r a p l h = Ok (linearize_column_major_aux r a p l h, a').
Proof.
  revert h p r a. induction l as [|l0 l IH]; intros [|h0 h] [|x p] r a Hn Hc Hr Hv; cbn in Hc, Hn; try discriminate; try tauto; [exists a; reflexivity|].
  apply andb_prop in Hc. destruct Hc as [Hx Hc]. cbn [volume_aux] in *. destruct (h0 <? l0) eqn:A; [lia|].
  pose proof (nonempty_volume l h (proj2 Hn)) as Hp. cbn [m_linearize_column_major_aux linearize_column_major_aux].
  assert (a * (h0 - l0 + 1) <= cmax I).
  { assert (0 <= a * (h0 - l0 + 1)) by (apply Z.mul_nonneg_nonneg; lia). rewrite Z.mul_assoc in Hv. nia. }
  assert (0 <= a * (x - l0)) by (apply Z.mul_nonneg_nonneg; lia). assert (a * (x - l0) + a <= a * (h0 - l0 + 1)) by nia.
  rewrite m_linearize_step_ok; try lia. cbn [obind fst snd]. apply IH; [tauto|exact Hc|lia|]. rewrite <- Z.mul_assoc. exact Hv.
Qed.
Lemma m_linearize_ok o b p : in_box b p -> volume b <= cmax I -> m_linearize I o b p = Ok (linearize o b p).
Proof.
  intros Hp Hv. pose proof (proj1 (nonempty_box_aux b) (in_box_nonempty _ _ Hp)) as Hn. apply contains_iff in Hp. destruct o; cbn [m_linearize].
  - destruct (m_linearize_row_ok (lo b) (hi b) p Hn Hp Hv) as [-> _]. reflexivity.
  - destruct (@m_linearize_col_ok (lo b) (hi b) p 0 1 Hn Hp ltac:(lia)) as [a' ->]; [unfold volume in Hv; lia|]. reflexivity.
Qed.
(** ... and the converse: linearisation of any point overflows when the volume is not a COORD_T *)
Lemma m_linearize_row_inv l h p r a : nonempty_aux l h -> length p = length l -> m_linearize_row_major_aux I p l h = Ok (r, a) -> a = volume_aux l h /\ (l <> [] -> a <= cmax I).
Proof.
  revert h p r a. induction l as [|l0 l IH]; intros [|h0 h] [|x p] r a Hn Hl H; cbn in Hl, Hn; try discriminate; try tauto; [injection H as <- <-; split; [reflexivity|congruence]|].
  cbn [m_linearize_row_major_aux] in H. destruct (m_linearize_row_major_aux I p l h) as [[r1 a1]| | |] eqn:F; cbn [obind fst snd] in H; try discriminate.
  destruct (IH h p r1 a1 (proj2 Hn) ltac:(lia) F) as [-> _]. apply m_linearize_step_inv in H. destruct H as (_ & -> & H). split; [|intros _; exact H].
  cbn [volume_aux]. destruct (h0 <? l0) eqn:A; [lia|ring].
Qed.
Lemma m_linearize_col_inv l h p r0 a0 r a : nonempty_aux l h -> length p = length l -> m_linearize_column_major_aux I r0 a0 p l h = Ok (r, a) -> a = a0 * volume_aux l h /\ (l <> [] -> a <= cmax I).
Proof.
  revert h p r0 a0. induction l as [|l0 l IH]; intros [|h0 h] [|x p] r0 a0 Hn Hl H; cbn in Hl, Hn; try discriminate; try tauto; [injection H as <- <-; split; [cbn; ring|congruence]|].
  cbn [m_linearize_column_major_aux] in H. destruct (m_linearize_step I r0 a0 x l0 h0) as [[r1 a1]| | |] eqn:F; cbn [obind fst snd] in H; try discriminate.
  apply m_linearize_step_inv in F. destruct F as (_ & -> & F). destruct (IH h p _ _ (proj2 Hn) ltac:(lia) H) as [-> G]. cbn [volume_aux]. destruct (h0 <? l0) eqn:A; [lia|].
  split; [ring|]. intros _. destruct l as [|l1 l]; [|apply G; discriminate]. destruct h; [|tauto]. cbn [volume_aux]. lia.
Qed.
Lemma m_linearize_overflow o b p : lo b <> [] -> in_box b p -> cmax I < volume b -> m_linearize I o b p = UB.
Proof.
  intros Hne Hp Hv. pose proof (proj1 (nonempty_box_aux b) (in_box_nonempty _ _ Hp)) as Hn. destruct Hp as [Hl _].
  assert (NA : forall x y, x <> Ok y -> (x = UB \/ x = @AssertFail (Z * Z) \/ x = OutOfFuel) \/ exists z, x = Ok z) by (intros [z| | |] y _; [right; exists z; reflexivity| | |]; left; auto).
  assert (CC : forall z, cc I z = UB \/ cc I z = Ok z) by (intros z; unfold cc; destruct ((cmin I <=? z) && (z <=? cmax I)); auto).
  assert (ST : forall r a x l0 h0, m_linearize_step I r a x l0 h0 = UB \/ exists y, m_linearize_step I r a x l0 h0 = Ok y).
  { intros. unfold m_linearize_step. repeat (match goal with |- context [obind (cc I ?z) _] => destruct (CC z) as [->| ->]; cbn [obind]; [left; reflexivity|] end). right. eexists. reflexivity. }
  destruct o; cbn [m_linearize].
  - assert (R : forall l h q, m_linearize_row_major_aux I q l h = UB \/ exists y, m_linearize_row_major_aux I q l h = Ok y).
    { induction l as [|l0 l IH]; intros h q; [destruct q; right; eexists; reflexivity|]. destruct q as [|x q]; [right; eexists; reflexivity|]. destruct h as [|h0 h]; [right; eexists; reflexivity|].
      cbn [m_linearize_row_major_aux]. destruct (IH h q) as [->|[y ->]]; cbn [obind]; [left; reflexivity|]. apply ST. }
    destruct (R (lo b) (hi b) p) as [->|[[r a] F]]; [reflexivity|]. exfalso. destruct (@m_linearize_row_inv (lo b) (hi b) p r a Hn Hl F) as [-> G]. specialize (G Hne). unfold volume in Hv. lia.
  - assert (R : forall l h q r a, m_linearize_column_major_aux I r a q l h = UB \/ exists y, m_linearize_column_major_aux I r a q l h = Ok y).
    { induction l as [|l0 l IH]; intros h q r a; [destruct q; right; eexists; reflexivity|]. destruct q as [|x q]; [right; eexists; reflexivity|]. destruct h as [|h0 h]; [right; eexists; reflexivity|].
      cbn [m_linearize_column_major_aux]. destruct (ST r a x l0 h0) as [->|[y ->]]; cbn [obind]; [left; reflexivity|]. apply IH. }
    destruct (R (lo b) (hi b) p 0 1) as [->|[[r a] F]]; [reflexivity|]. exfalso. destruct (@m_linearize_col_inv (lo b) (hi b) p 0 1 r a Hn Hl F) as [-> G]. specialize (G Hne). unfold volume in Hv. lia.
Qed.

(** *** calculate_stencil_size *)
Lemma m_sub_offsets_ok l0 h0 i offs : (forall oe, In oe offs -> cmin I <= i + hd 0 (fst oe) <= cmax I) -> m_sub_offsets I l0 h0 i offs = Ok (sub_offsets l0 h0 i offs).
Proof.
  induction offs as [|oe offs IH]; intros H; [reflexivity|]. cbn [m_sub_offsets]. rewrite cc_ok by (apply H; left; reflexivity). cbn [obind].
  rewrite IH by (intros oe' H'; apply H; right; exact H'). cbn [obind]. unfold sub_offsets. cbn [flat_map].
  destruct ((l0 <=? i + hd 0 (fst oe)) && (i + hd 0 (fst oe) <=? h0)); reflexivity.
Qed.
Lemma m_slice_loop_ok sub msub l0 h0 offs V fuel : cmin I <= l0 -> h0 < cmax I -> h0 - l0 + 1 <= cmax I -> 0 <= V ->
  (forall oe i, In oe offs -> l0 <= i <= h0 -> cmin I <= i + hd 0 (fst oe) <= cmax I) ->
  Z.of_nat (length offs) * V * (h0 - l0 + 1) <= kmax I ->
  (forall i, l0 <= i <= h0 -> msub (sub_offsets l0 h0 i offs) = sub (sub_offsets l0 h0 i offs) /\ forall z, sub (sub_offsets l0 h0 i offs) = Ok z -> 0 <= z <= Z.of_nat (length offs) * V) ->
  forall i r, l0 <= i <= h0 + 1 -> 0 <= r <= Z.of_nat (length offs) * V * (i - l0) ->
  m_slice_loop I fuel msub l0 h0 (min_offset offs) (max_offset offs) offs i r = slice_loop fuel sub l0 h0 (min_offset offs) (max_offset offs) offs i r /\
  forall z, slice_loop fuel sub l0 h0 (min_offset offs) (max_offset offs) offs i r = Ok z -> 0 <= z <= Z.of_nat (length offs) * V * (h0 - l0 + 1).
Proof.
  intros Hl Hh He HV Ho Hk Hs. destruct HI as [HI1 HI2]. set (NV := Z.of_nat (length offs) * V) in *. assert (0 <= NV) by (unfold NV; nia).
  induction fuel as [|f IH]; intros i r Hi Hr; [cbn; split; [reflexivity|discriminate]|]. cbn [m_slice_loop slice_loop].
  destruct (i <=? h0) eqn:A.
  2:{ split; [reflexivity|]. intros z Hz. injection Hz as <-. apply Z.leb_gt in A. assert (i = h0 + 1) by lia. subst i. replace (h0 - l0 + 1) with (h0 + 1 - l0) by lia. exact Hr. }
  apply Z.leb_le in A. rewrite m_sub_offsets_ok by (intros oe Hin; apply Ho; [exact Hin|lia]). cbn [obind].
  destruct (Hs i ltac:(lia)) as [-> Hz].
  destruct ((length (sub_offsets l0 h0 i offs) =? length offs)%nat) eqn:B.
  - apply sub_offsets_all in B. pose proof (@all_in_mn E l0 h0 offs i B ltac:(lia)) as Hmn. pose proof (@all_in_mx E l0 h0 offs i B ltac:(lia)) as Hmx.
    destruct (min_offset_spec E offs) as (_ & Hmn0 & _). destruct (max_offset_spec E offs) as (_ & Hmx0 & _).
    rewrite cc_ok by lia. cbn [obind]. destruct (i =? l0 - min_offset offs) eqn:C; cbn [oassert]; [|split; [reflexivity|discriminate]].
    rewrite cc_ok by lia. cbn [obind]. destruct (h0 - max_offset offs >=? i) eqn:D; cbn [oassert]; [|split; [reflexivity|discriminate]].
    apply Z.geb_le in D. rewrite cc_ok by lia. cbn [obind]. rewrite cc_ok by lia. cbn [obind].
    destruct (sub (sub_offsets l0 h0 i offs)) as [z| | |]; cbn [obind]; try (split; [reflexivity|discriminate]).
    specialize (Hz z eq_refl). rewrite cc_ok by lia. cbn [obind]. set (i' := h0 - max_offset offs) in *.
    assert (X1 : 0 <= (i' - i + 1) * z <= NV * (i' - i + 1)) by nia. assert (X2 : NV * (i' - i + 1) + NV * (i - l0) <= NV * (h0 - l0 + 1)) by nia.
    rewrite (@sz_ok ((i' - i + 1) * z)) by nia. rewrite sz_ok by nia. apply IH; [lia|nia].
  - destruct (sub (sub_offsets l0 h0 i offs)) as [z| | |]; cbn [obind]; try (split; [reflexivity|discriminate]).
    specialize (Hz z eq_refl). rewrite cc_ok by lia. cbn [obind].
    assert (X2 : NV + NV * (i - l0) <= NV * (h0 - l0 + 1)) by nia. rewrite sz_ok by nia. apply IH; [lia|nia].
Qed.
Lemma m_size_1d_ok l0 h0 offs r : l0 <= h0 -> h0 - l0 + 1 <= cmax I -> (forall oe, In oe offs -> cmin I < hd 0 (fst oe) <= cmax I) -> 0 <= r -> r + Z.of_nat (length offs) * (h0 - l0 + 1) <= kmax I ->
  m_size_1d I (volume (mk_rect [l0] [h0])) offs r =
  Ok (fold_left (fun result (oe : point * E) => let distance := Z.abs (hd 0 (fst oe)) in if distance <=? volume (mk_rect [l0] [h0]) then result + (volume (mk_rect [l0] [h0]) - distance) else result) offs r) /\
  0 <= fold_left (fun result (oe : point * E) => let distance := Z.abs (hd 0 (fst oe)) in if distance <=? volume (mk_rect [l0] [h0]) then result + (volume (mk_rect [l0] [h0]) - distance) else result) offs r <= r + Z.of_nat (length offs) * (h0 - l0 + 1).
Proof.
  intros Hlh He. destruct HI as [HI1 HI2]. assert (EV : volume (mk_rect [l0] [h0]) = h0 - l0 + 1) by (unfold volume; cbn [volume_aux lo hi]; destruct (h0 <? l0) eqn:A; lia). rewrite EV. assert (HL : 1 <= h0 - l0 + 1) by lia. revert HL He. generalize (h0 - l0 + 1) as L. clear EV Hlh. intros L HL He.
  revert r. induction offs as [|oe offs IH]; intros r Ho Hr Hk; [cbn; split; [reflexivity|lia]|].
  cbn [m_size_1d fold_left]. unfold m_abs. pose proof (Ho oe (or_introl eq_refl)) as H1. rewrite cc_ok by lia. cbn [obind]. cbv zeta. rewrite (@sz_ok (Z.abs _)) by lia.
  replace (Z.of_nat (length (oe :: offs))) with (Z.of_nat (length offs) + 1) in * by (cbn [length]; lia).
  destruct (Z.abs (hd 0 (fst oe)) <=? L) eqn:A.
  - apply Z.leb_le in A. assert (0 <= Z.of_nat (length offs) * L) by nia. rewrite Z.mul_add_distr_r in *. rewrite sz_ok by lia. destruct (IH (r + (L - Z.abs (hd 0 (fst oe))))) as [E1 E2]; [intros; apply Ho; right; assumption|lia|lia|]. cbv zeta in E1, E2. split; [exact E1|lia].
  - destruct (IH r) as [E1 E2]; [intros; apply Ho; right; assumption|lia|nia|]. cbv zeta in E1, E2. split; [exact E1|nia].
Qed.
Lemma offset_fits_cons l0 l h0 h o : offset_fits (l0 :: l) (h0 :: h) o -> cmin I < hd 0 o <= cmax I /\ cmin I <= l0 + hd 0 o /\ h0 + hd 0 o <= cmax I /\ offset_fits l h (tl o).
Proof. destruct o as [|x o]; cbn; tauto. Qed.
Lemma m_stencil_size_ok fuel l h offs : l <> [] -> box_fits l h -> (forall oe, In oe offs -> offset_fits l h (fst oe)) -> Z.of_nat (length offs) * volume_aux l h <= kmax I ->
  m_stencil_size_aux I fuel l h offs = stencil_size_aux fuel l h offs /\ forall z, stencil_size_aux fuel l h offs = Ok z -> 0 <= z <= Z.of_nat (length offs) * volume_aux l h.
Proof.
  revert h offs. induction l as [|l0 l IH]; intros [|h0 h] offs Hne Hb Ho Hk; cbn in Hb; try tauto.
  cbn [m_stencil_size_aux stencil_size_aux]. cbn [volume_aux] in *. destruct Hb as [Hb0 Hb]. destruct (h0 <? l0) eqn:A; [lia|].
  destruct offs as [|oe0 offs0]; [split; [reflexivity|]; intros z Hz; injection Hz as <-; cbn; lia|]. set (offs := oe0 :: offs0) in *.
  assert (Hhd : forall oe, In oe offs -> cmin I < hd 0 (fst oe) <= cmax I /\ cmin I <= l0 + hd 0 (fst oe) /\ h0 + hd 0 (fst oe) <= cmax I /\ offset_fits l h (tl (fst oe))) by (intros oe Hin; apply offset_fits_cons, Ho, Hin).
  destruct l as [|l1 l].
  - destruct h; [|cbn in Hb; tauto]. cbn [volume_aux] in *. destruct (@m_size_1d_ok l0 h0 offs 0) as [E1 E2]; [lia|lia| |lia|lia|].
    + intros oe Hin. specialize (Hhd oe Hin). destruct HI. lia.
    + rewrite E1. split; [reflexivity|]. intros z Hz. injection Hz as <-. rewrite Z.mul_1_r. exact E2.
  - set (l' := l1 :: l) in *. pose proof (nonempty_volume l' h (box_fits_nonempty l' h Hb)) as HV.
    destruct (@m_slice_loop_ok (stencil_size_aux fuel l' h) (m_stencil_size_aux I fuel l' h) l0 h0 offs (volume_aux l' h) fuel) with (i := l0) (r := 0) as [E1 E2]; try lia; [| |].
    + intros oe i Hin Hi. specialize (Hhd oe Hin). lia.
    + intros i Hi. pose proof (sub_offsets_length_le E l0 h0 i offs) as Hle.
      assert (Hsub : Z.of_nat (length (sub_offsets l0 h0 i offs)) * volume_aux l' h <= Z.of_nat (length offs) * volume_aux l' h) by (apply Z.mul_le_mono_nonneg_r; lia).
      destruct (IH h (sub_offsets l0 h0 i offs)) as [F1 F2]; [discriminate|exact Hb| |nia|].
      * intros oe Hin. unfold sub_offsets in Hin. apply in_flat_map in Hin. destruct Hin as [oe' [Hin Hx]]. destruct ((l0 <=? i + hd 0 (fst oe')) && (i + hd 0 (fst oe') <=? h0)); [|destruct Hx].
        destruct Hx as [<-|[]]. cbn [fst]. apply Hhd. exact Hin.
      * split; [exact F1|]. intros z Hz. specialize (F2 z Hz). lia.
    + split; [exact E1|]. intros z Hz. specialize (E2 z Hz). nia.
Qed.
End Facts.
