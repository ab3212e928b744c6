(** StencilMachineFill: the fill tasks of StencilMachine.v agree with those of StencilFill.v when everything fits. *)
From Verif Require Import Base Index IndexSpec IndexFacts Outcome Sched PartitionSpec StencilSize StencilSpec StencilSizeFacts StencilFill StencilFillFacts StencilSkip StencilCreate StencilMachine StencilMachineFacts.
Set Implicit Arguments.
Local Open Scope Z_scope.

Section Fill.
Variable I : int_types.
Hypothesis HI : int_types_ok I.
Variable E : Type.
Implicit Types (offs : list (point * E)).

Lemma row_loop_count b emit offs p k : k <= snd (row_loop b emit offs p k) <= k + Z.of_nat (length offs).
Proof.
  revert k. induction offs as [|[o e] offs IH]; intros k; [cbn; lia|]. cbn [row_loop]. destruct (contains b (padd p o)).
  - specialize (IH (k + 1)). destruct (row_loop b emit offs p (k + 1)) as [ws k']. cbn [snd length] in *. lia.
  - specialize (IH k). cbn [length]. lia.
Qed.
Lemma m_row_loop_ok b emit memit offs p k : in_box b p -> (forall oe, In oe offs -> offset_fits I (lo b) (hi b) (fst oe)) ->
  (forall j s e, contains b s = true -> memit j s e = Ok (emit j s e)) -> 0 <= k -> k + Z.of_nat (length offs) <= kmax I ->
  m_row_loop I b memit offs p k = Ok (row_loop b emit offs p k).
Proof.
  intros Hp Ho He. apply contains_iff in Hp. revert k. induction offs as [|[o e] offs IH]; intros k Hk Hm; [reflexivity|]. cbn [m_row_loop row_loop]. cbn [length] in Hm.
  rewrite (@m_padd_ok I (lo b) (hi b) p o Hp (Ho (o, e) (or_introl eq_refl))). cbn [obind]. assert (Ho' : forall oe, In oe offs -> offset_fits I (lo b) (hi b) (fst oe)) by (intros; apply Ho; right; assumption).
  destruct (contains b (padd p o)) eqn:A.
  - rewrite He by exact A. cbn [obind]. rewrite kc_ok by lia. cbn [obind]. rewrite (IH Ho' (k + 1)) by lia. cbn [obind]. destruct (row_loop b emit offs p (k + 1)); reflexivity.
  - apply (IH Ho'); lia.
Qed.
Lemma m_fill_loop_ok inc minc body mbody n L e : forall fuel p k,
  chain inc (p :: L) e -> (forall q, In q (p :: L) -> minc q = Ok (inc q)) -> 0 <= n ->
  (forall q j, In q (p :: L) -> 0 <= j -> j + n <= kmax I -> mbody q j = Ok (body q j) /\ j <= snd (body q j : list (wstep E) * Z) <= j + n) ->
  0 <= k -> k + n * Z.of_nat (length (p :: L)) <= kmax I ->
  m_fill_loop fuel minc mbody p k = fill_loop fuel inc body p k.
Proof.
  induction L as [|q L IH]; intros fuel p k Hc Hi Hn Hb Hk Hm; (destruct fuel as [|fuel]; [reflexivity|]); cbn [m_fill_loop fill_loop].
  - cbn [length] in Hm. destruct (Hb p k (or_introl eq_refl) Hk ltac:(lia)) as [-> _]. cbn [obind]. rewrite (Hi p (or_introl eq_refl)). cbn in Hc. rewrite Hc. cbn [obind snd]. destruct (body p k); reflexivity.
  - rewrite chain_cons2 in Hc. destruct Hc as [Hc1 Hc2].
    assert (Hm' : k + n + n * Z.of_nat (length (q :: L)) <= kmax I) by (cbn [length] in *; nia). assert (0 <= n * Z.of_nat (length (q :: L))) by nia.
    destruct (Hb p k (or_introl eq_refl) Hk ltac:(lia)) as [-> Hs]. cbn [obind]. rewrite (Hi p (or_introl eq_refl)), Hc1. cbn [obind snd fst].
    destruct (body p k) as [ws k1]. cbn [fst snd] in *. rewrite IH; [reflexivity|exact Hc2|intros; apply Hi; right; assumption|exact Hn|intros; apply Hb; [right; assumption|lia|lia]|lia|lia].
Qed.

(** an encoder of points that agrees on the box *)
Definition enc_ok (b : rect) (menc : point -> outcome point) (enc : point -> point) : Prop := forall p, in_box b p -> menc p = Ok (enc p).
Lemma enc_id_ok b : enc_ok b m_enc_id (fun p => p).
Proof. intros p _. reflexivity. Qed.
Lemma enc_lin_ok o b : volume b <= cmax I -> enc_ok b (m_enc_lin I o b) (fun p => [linearize o b p]).
Proof. intros Hv p Hp. unfold m_enc_lin. rewrite m_linearize_ok by assumption. reflexivity. Qed.

Lemma fold_leading_fst (P : Z -> Prop) (os : list (point * E)) : forall a c, P a -> (forall oe, In oe os -> P (hd 0 (fst oe))) -> P (fst (fold_left leading_step os (a, c))).
Proof.
  induction os as [|oe os IH]; intros a c Ha Ho; [exact Ha|]. cbn [fold_left]. cbn [leading_step]. apply IH; [|intros; apply Ho; right; assumption].
  destruct (hd 0 (fst oe) <? a); [apply Ho; left; reflexivity|exact Ha].
Qed.
Lemma fold_leading_snd (P : Z -> Prop) (os : list (point * E)) : forall a c, P c -> (forall oe, In oe os -> P (hd 0 (fst oe))) -> P (snd (fold_left leading_step os (a, c))).
Proof.
  induction os as [|oe os IH]; intros a c Ha Ho; [exact Ha|]. cbn [fold_left]. cbn [leading_step]. apply IH; [|intros; apply Ho; right; assumption].
  destruct (hd 0 (fst oe) >? c); [apply Ho; left; reflexivity|exact Ha].
Qed.
Lemma linearize_self l h : fst (linearize_row_major_aux l l h) = 0.
Proof.
  revert h. induction l as [|l0 l IH]; intros [|h0 h]; try reflexivity. cbn [linearize_row_major_aux]. specialize (IH h). destruct (linearize_row_major_aux l l h) as [r a]. cbn [fst] in *. subst r. lia.
Qed.
Section Task.
Variables (b : rect) (offs : list (point * E)).
Hypothesis Hne : nonempty_box b.
Hypothesis Hbox : box_fits I (lo b) (hi b).
Hypothesis Hoff : forall oe, In oe offs -> offset_fits I (lo b) (hi b) (fst oe).
Hypothesis Hpos : positions_fit I b offs.
Let n := Z.of_nat (length offs).

Lemma volume_positive : 1 <= volume b.
Proof. pose proof (nonempty_volume (lo b) (hi b) (proj1 (nonempty_box_aux b) Hne)). unfold volume. lia. Qed.
Lemma total_fits : 0 + n * volume b <= kmax I.
Proof. unfold positions_fit in Hpos. fold n in Hpos. destruct HI as [_ H1]. lia. Qed.
Lemma box_chain o : exists L, box_points o b = lo b :: L /\ chain (increment o b) (lo b :: L) (lo b) /\ (forall q, In q (lo b :: L) -> in_box b q) /\ Z.of_nat (length (lo b :: L)) = volume b.
Proof.
  pose proof (nonempty_wf _ Hne) as Hwf. destruct (box_points_clamp_hd o b Hwf) as [L HL]. pose proof (chain_order o b Hwf) as Hc. rewrite clamp_id in HL, Hc by exact Hne.
  exists L. split; [exact HL|]. rewrite <- HL. split; [exact Hc|]. split; [intros q Hq; apply (in_box_points o); [exact Hwf|exact Hq]|apply box_points_length; exact Hwf].
Qed.
Lemma m_fill_coo_gen_ok fuel o enc menc mdom : enc_ok b menc enc -> m_fill_coo_gen I fuel o b menc mdom offs = fill_coo_gen fuel o b enc mdom offs.
Proof.
  intros He. unfold m_fill_coo_gen, fill_coo_gen. destruct (box_chain o) as (L & _ & Hc & Hin & Hlen).
  apply m_fill_loop_ok with (n := n) (L := L) (e := lo b); [exact Hc|intros q Hq; apply m_increment_ok; [exact Hbox|apply Hin; exact Hq]|unfold n; lia| |lia|rewrite Hlen; apply total_fits].
  intros q j Hq Hj Hm. split; [|apply row_loop_count]. apply m_row_loop_ok; [apply Hin; exact Hq|exact Hoff| |exact Hj|exact Hm].
  intros i s e Hs. unfold m_emit_coo, emit_coo. destruct (mdom i); [|reflexivity]. rewrite (He q) by (apply Hin; exact Hq). cbn [obind]. rewrite (He s) by (apply contains_iff; exact Hs). reflexivity.
Qed.
Lemma m_emit_csr_ok enc menc mdom : enc_ok b menc enc -> forall j s e, contains b s = true -> m_emit_csr menc mdom j s e = Ok (@emit_csr E enc mdom j s e).
Proof. intros He j s e Hs. unfold m_emit_csr, emit_csr. destruct (mdom j); [|reflexivity]. rewrite (He s) by (apply contains_iff; exact Hs). reflexivity. Qed.
Lemma m_fill_csr_gen_ok fuel o enc menc mdom rdom : enc_ok b menc enc -> m_fill_csr_gen I fuel o b menc mdom rdom offs = fill_csr_gen fuel o b enc mdom rdom offs.
Proof.
  intros He. unfold m_fill_csr_gen, fill_csr_gen. destruct (box_chain o) as (L & _ & Hc & Hin & Hlen).
  apply m_fill_loop_ok with (n := n) (L := L) (e := lo b); [exact Hc|intros q Hq; apply m_increment_ok; [exact Hbox|apply Hin; exact Hq]|unfold n; lia| |lia|rewrite Hlen; apply total_fits].
  intros q j Hq Hj Hm. unfold m_csr_body, csr_body. rewrite (He q) by (apply Hin; exact Hq). cbn [obind].
  rewrite (@m_row_loop_ok b (emit_csr enc mdom)) by (try exact Hm; try exact Hj; try exact Hoff; try (apply Hin; exact Hq); apply m_emit_csr_ok; exact He). cbn [obind].
  pose proof (row_loop_count b (emit_csr enc mdom) offs q j) as Hr. destruct (row_loop b (emit_csr enc mdom) offs q j) as [ws k']. cbn [fst snd] in *. fold n in Hr. rewrite kc_ok by lia. cbn [obind]. split; [reflexivity|exact Hr].
Qed.

(** *** the skipping loop of FillLinearizedCSRStencilTask *)
Variables (mdom rdom : dom1).
Hypothesis Hvol : volume b <= cmax I.
Hypothesis Hdim : lo b <> [].
Let N := n * volume b + 1.
Hypothesis Hmlo : dlo mdom <= N.
Hypothesis Hrlo : dlo rdom <= volume b.
Let lin := linearize_row_major b.

Lemma m_in_bulk_ok p : in_box b p -> m_in_bulk I b offs p = Ok (in_bulk b offs p).
Proof.
  intros Hp. apply contains_iff in Hp. unfold contains in Hp. unfold m_in_bulk, in_bulk. cbv zeta.
  pose proof Hbox as Hb. pose proof Hoff as Ho. destruct (lo b) as [|l0 l]; [congruence|]. destruct (hi b) as [|h0 h]; [cbn in Hb; tauto|].
  destruct p as [|x p]; [discriminate|]. cbn in Hp. apply andb_prop in Hp. destruct Hp as [Hx _]. apply andb_prop in Hx. destruct Hx as [Hx1 Hx2]. cbn [hd]. destruct Hb as [Hb _].
  assert (G : forall oe, In oe offs -> cmin I <= x + hd 0 (fst oe) <= cmax I).
  { intros oe Hin. pose proof (Ho oe Hin) as Q. apply offset_fits_cons in Q. lia. }
  assert (L : cmin I <= x + fst (leading_dimension_bounds offs) <= cmax I) by (apply (fold_leading_fst (fun z => cmin I <= x + z <= cmax I)); [lia|exact G]).
  assert (U : cmin I <= x + snd (leading_dimension_bounds offs) <= cmax I) by (apply (fold_leading_snd (fun z => cmin I <= x + z <= cmax I)); [lia|exact G]).
  rewrite cc_ok by exact L. cbn [obind]. destruct (x + fst (leading_dimension_bounds offs) >=? l0); [|reflexivity]. rewrite cc_ok by exact U. reflexivity.
Qed.
(** the start of the next slice, which may be one beyond the box *)
Lemma next_slice p : in_box b p -> tail_equal p (lo b) = true ->
  m_increment_head I p = Ok (increment_head p) /\ m_linearize I ROW_MAJOR b (increment_head p) = Ok (lin (increment_head p)) /\
  (lin (increment_head p) < volume b -> in_box b (increment_head p)) /\ tail_equal (increment_head p) (lo b) = true /\ lin p <= lin (increment_head p).
Proof.
  intros Hp Ht. assert (Hpl : length p = length (lo b)) by (destruct Hp as [Hp _]; exact Hp). rewrite <- contains_iff in *. unfold contains, lin, linearize_row_major, volume, tail_equal in *. cbn [m_linearize]. pose proof Hbox as Hb. pose proof Hvol as Hv. unfold volume in Hv.
  destruct (lo b) as [|l0 l]; [congruence|]. destruct (hi b) as [|h0 h]; [cbn in Hb; tauto|].
  destruct p as [|x p]; [discriminate|]. cbn in Hpl. cbn [tl] in Ht. apply (all_equal_eq E l0 h0 l h offs) in Ht; [|lia]. subst p.
  cbn [contains_aux] in Hp. apply andb_prop in Hp. destruct Hp as [Hx Hp]. apply andb_prop in Hx. destruct Hx as [Hx1 Hx2]. apply Z.leb_le in Hx1, Hx2. destruct Hb as [Hb Hb'].
  pose proof (box_fits_nonempty _ _ _ Hb') as Hn. pose proof (nonempty_volume l h Hn) as HV. cbn [volume_aux] in *. destruct (h0 <? l0) eqn:A; [lia|].
  cbn [increment_head m_increment_head m_linearize_row_major_aux tl]. rewrite cc_ok by lia. cbn [obind]. split; [reflexivity|].
  destruct (@m_linearize_row_ok I HI l h l Hn Hp ltac:(nia)) as [-> _]. cbn [obind].
  pose proof (linearize_self l h) as E1. pose proof (linearize_rm_acc l l h eq_refl Hn) as E2. cbn [linearize_row_major_aux]. destruct (linearize_row_major_aux l l h) as [r a]. cbn [fst snd] in *. subst r a.
  assert (volume_aux l h * (x + 1 - l0) <= volume_aux l h * (h0 - l0 + 1)) by (apply Z.mul_le_mono_nonneg_l; lia). assert (0 <= volume_aux l h * (x + 1 - l0)) by nia.
  rewrite m_linearize_step_ok; try assumption; try lia. cbn [obind fst]. split; [reflexivity|].
  split; [intros Hlt|split; [apply all_equal_refl|nia]]. assert (x + 1 <= h0) by nia. cbn [contains_aux]. rewrite Hp, !(proj2 (Z.leb_le _ _)) by lia. reflexivity.
Qed.
Lemma bounds_ok p : in_box b p -> 0 <= lin p /\ N + n * lin p + n <= 2 * N /\ 4 * N <= kmax I /\ 0 <= n * lin p /\ 0 <= n.
Proof.
  intros Hp. pose proof (linearize_range ROW_MAJOR b p Hp) as Hr. cbn [linearize] in Hr. fold lin in Hr. unfold positions_fit in Hpos. fold n in Hpos. assert (0 <= n) by (unfold n; lia). unfold N.
  repeat split; try lia; nia.
Qed.
(** the loop invariant: at most [N] entries were skipped, and at most [n] per row were stored *)
Definition good (p : point) (k : Z) : Prop := in_box b p /\ 0 <= k <= N + n * lin p.
Lemma m_skip_loop_ok s : 0 <= s <= 2 * N -> forall fuel p k, good p k -> tail_equal p (lo b) = true ->
  m_skip_loop I b offs mdom rdom fuel s p k = skip_loop b offs mdom rdom fuel s p k /\
  forall p' k', skip_loop b offs mdom rdom fuel s p k = Ok (p', k') -> good p' k' /\ k <= k'.
Proof.
  intros Hs. induction fuel as [|f IH]; intros p k [Hp Hk] Ht; [split; [reflexivity|discriminate]|]. cbn [m_skip_loop skip_loop].
  destruct (bounds_ok Hp) as (B1 & B2 & B3 & B4 & B5). destruct (next_slice Hp Ht) as (S1 & S2 & S3 & S4 & S5).
  rewrite m_in_bulk_ok by exact Hp. cbn [obind].
  assert (Here : forall p' k', Ok (p, k) = Ok (p', k') -> good p' k' /\ k <= k') by (intros p' k' H; injection H as <- <-; split; [split; assumption|lia]).
  destruct (in_bulk b offs p); cbn [andb]; [|split; [reflexivity|exact Here]].
  rewrite kc_ok by lia. cbn [obind]. destruct (k + s <? dlo mdom) eqn:A; cbn [andb]; [|split; [reflexivity|exact Here]].
  rewrite S1. cbn [obind]. rewrite S2. cbn [obind]. fold lin. destruct (lin (increment_head p) <? dlo rdom) eqn:C; [|split; [reflexivity|exact Here]].
  apply Z.ltb_lt in A, C. assert (Hq : in_box b (increment_head p)) by (apply S3; lia). destruct (bounds_ok Hq) as (Q1 & Q2 & Q3 & Q4 & Q5).
  destruct (IH (increment_head p) (k + s)) as [E1 E2]; [split; [exact Hq|lia]|exact S4|]. split; [exact E1|]. intros p' k' H. destruct (E2 p' k' H) as [G1 G2]. split; [exact G1|lia].
Qed.
Lemma m_prologue_ok fuel p k origin found : good p k -> 0 <= origin <= k ->
  m_prologue I b offs mdom rdom fuel p k origin found = prologue b offs mdom rdom fuel p k origin found /\
  forall p' k' origin' found', prologue b offs mdom rdom fuel p k origin found = Ok (p', k', origin', found') -> good p' k' /\ 0 <= origin' <= k'.
Proof.
  intros Hg Ho. pose proof Hg as [Hp Hk]. destruct (bounds_ok Hp) as (B1 & B2 & B3 & B4 & B5). unfold m_prologue, prologue. destruct (tail_equal p (lo b)) eqn:Ht.
  2:{ split; [reflexivity|]. intros p' k' o' f' H. injection H as <- <- <- <-. auto. }
  destruct found.
  - rewrite kc_ok by lia. cbn [obind]. destruct (@m_skip_loop_ok (k - origin) ltac:(lia) fuel p k Hg Ht) as [-> E2].
    destruct (skip_loop b offs mdom rdom fuel (k - origin) p k) as [[p1 k1]| | |]; cbn [obind negb andb]; try (split; [reflexivity|discriminate]).
    destruct (E2 p1 k1 eq_refl) as [G1 G2]. split; [reflexivity|]. intros p' k' o' f' H. injection H as <- <- <- <-. split; [exact G1|lia].
  - cbn [obind negb andb]. rewrite m_in_bulk_ok by exact Hp. cbn [obind]. destruct (in_bulk b offs p); (split; [reflexivity|]; intros p' k' o' f' H; injection H as <- <- <- <-; split; [exact Hg|lia]).
Qed.
Lemma increment_next p q : in_box b p -> increment_row_major b p = (q, true) -> in_box b q /\ lin q = lin p + 1.
Proof.
  intros Hp Hi. pose proof (nonempty_wf _ Hne) as Hwf. destruct (box_chain ROW_MAJOR) as (L & EL & Hc & Hin & Hlen).
  assert (G : forall L e, chain (increment_row_major b) L e -> forall i x, nth_error L i = Some x -> increment_row_major b x = (q, true) -> nth_error L (S i) = Some q).
  { clear. induction L as [|y L IH]; intros e Hc i x Hn Hx; [destruct i; discriminate|]. destruct L as [|z L].
    - destruct i as [|i]; [|destruct i; discriminate]. cbn in Hn, Hc. injection Hn as ->. congruence.
    - rewrite chain_cons2 in Hc. destruct Hc as [H1 H2]. destruct i as [|i].
      + cbn in Hn |- *. injection Hn as ->. congruence.
      + cbn [nth_error] in Hn |- *. apply (IH e H2 i x Hn Hx). }
  apply (in_box_points ROW_MAJOR b p Hwf) in Hp. rewrite EL in Hp. destruct (In_nth_error _ _ Hp) as [i Hn]. pose proof (G _ _ Hc i p Hn Hi) as Hq.
  split; [apply Hin; eapply nth_error_In; exact Hq|]. rewrite <- EL in Hn, Hq.
  assert (L1 : (i < length (box_points ROW_MAJOR b))%nat) by (apply nth_error_Some; congruence). assert (L2 : (S i < length (box_points ROW_MAJOR b))%nat) by (apply nth_error_Some; congruence).
  pose proof (nth_linearize ROW_MAJOR b i p Hne L1) as E1. pose proof (nth_linearize ROW_MAJOR b (S i) p Hne L2) as E2.
  rewrite (nth_error_nth _ _ p Hn) in E1. rewrite (nth_error_nth _ _ p Hq) in E2. cbn [linearize] in E1, E2. fold lin in E1, E2. lia.
Qed.
Lemma m_lin_csr_loop_ok : forall fuel p k origin found, good p k -> 0 <= origin <= k ->
  m_lin_csr_loop I b offs mdom rdom fuel p k origin found = lin_csr_loop b offs mdom rdom fuel p k origin found.
Proof.
  induction fuel as [|f IH]; intros p k origin found Hg Ho; [reflexivity|]. cbn [m_lin_csr_loop lin_csr_loop].
  destruct (@m_prologue_ok (S f) p k origin found Hg Ho) as [-> E2]. destruct (prologue b offs mdom rdom (S f) p k origin found) as [[[[p1 k1] o1] f1]| | |]; cbn [obind]; try reflexivity.
  destruct (E2 p1 k1 o1 f1 eq_refl) as [[Hp1 Hk1] Ho1]. destruct (bounds_ok Hp1) as (B1 & B2 & B3 & B4 & B5).
  rewrite (@m_linearize_ok I HI ROW_MAJOR b p1 Hp1 Hvol). cbn [obind linearize].
  rewrite (@m_row_loop_ok b (emit_csr (fun q => [linearize_row_major b q]) (dmem mdom)));
    [|exact Hp1|exact Hoff|apply m_emit_csr_ok; apply (@enc_lin_ok ROW_MAJOR b Hvol)|lia|fold n; lia]. cbn [obind].
  pose proof (row_loop_count b (emit_csr (fun q => [linearize_row_major b q]) (dmem mdom)) offs p1 k1) as Hc.
  destruct (row_loop b (emit_csr (fun q => [linearize_row_major b q]) (dmem mdom)) offs p1 k1) as [ws k2]. cbn [fst snd] in *. fold n in Hc. rewrite kc_ok by lia. cbn [obind].
  destruct ((k2 >? dhi mdom) && (linearize_row_major b p1 >? dhi rdom)); [reflexivity|].
  rewrite (@m_increment_ok I ROW_MAJOR b p1 Hbox Hp1). cbn [obind increment]. destruct (increment_row_major b p1) as [q more] eqn:Q. cbn [fst snd]. destruct more; [|reflexivity].
  destruct (increment_next Hp1 Q) as [Hq Hlq]. rewrite IH; [reflexivity| |lia]. split; [exact Hq|]. rewrite Hlq. nia.
Qed.
Lemma lo_in_box : in_box b (lo b).
Proof. apply contains_iff. apply nonempty_contains_lo. apply nonempty_box_aux. exact Hne. Qed.
Lemma m_fill_linearized_csr_ok fuel o : m_fill_linearized_csr_task I fuel o b mdom rdom offs = fill_linearized_csr_task fuel o b mdom rdom offs.
Proof.
  destruct o; cbn [m_fill_linearized_csr_task fill_linearized_csr_task].
  - apply m_lin_csr_loop_ok; [|lia]. split; [apply lo_in_box|]. destruct (bounds_ok lo_in_box) as (B1 & B2 & B3 & B4 & B5). pose proof volume_positive. unfold N. nia.
  - rewrite (@m_fill_csr_gen_ok fuel COLUMN_MAJOR (fun p => [linearize_column_major b p])); [reflexivity|]. apply (@enc_lin_ok COLUMN_MAJOR b Hvol).
Qed.
End Task.
End Fill.
