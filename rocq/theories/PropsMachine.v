(** PropsMachine: property C64 (stencil matrices in machine integers). *)
From Verif Require Import Base Index IndexSpec IndexFacts Outcome Sched PartitionSpec StencilSpec StencilSize StencilSizeFacts
  StencilFill StencilFillFacts StencilLaunch StencilSkip StencilTasks StencilCreate PropsStencil StencilMachine StencilMachineFacts StencilMachineFill.
Set Implicit Arguments.
Local Open Scope Z_scope.

Lemma int_S32_ok : int_types_ok int_S32.
Proof. unfold int_types_ok, int_S32. cbn [cmin cmax kmax]. lia. Qed.
Lemma int_S64_ok : int_types_ok int_S64.
Proof. unfold int_types_ok, int_S64. cbn [cmin cmax kmax]. lia. Qed.

Section Agree.
Variable I : int_types.
Hypothesis HI : int_types_ok I.
Variable E : Type.
Variable ltE : E -> E -> bool.
Variables (b : rect) (offs : list (point * E)).
Hypothesis Hdim : lo b <> [].
Hypothesis Hne : nonempty_box b.
Hypothesis Hod : offsets_dim b offs.
Hypothesis Hfit : coordinates_fit I b offs.
Hypothesis Hpos : positions_fit I b offs.

Lemma machine_size fuel : m_calculate_stencil_size I fuel b offs = calculate_stencil_size fuel b offs.
Proof.
  destruct (fits_of Hne Hod Hfit) as [Hb Ho]. unfold m_calculate_stencil_size, calculate_stencil_size.
  refine (proj1 (@m_stencil_size_ok I HI E fuel (lo b) (hi b) offs Hdim Hb Ho _)). unfold positions_fit, volume in Hpos. destruct HI. lia.
Qed.
Lemma size_bound fuel z : calculate_stencil_size fuel b offs = Ok z -> 0 <= z <= Z.of_nat (length offs) * volume b.
Proof.
  destruct (fits_of Hne Hod Hfit) as [Hb Ho]. unfold calculate_stencil_size.
  refine (proj2 (@m_stencil_size_ok I HI E fuel (lo b) (hi b) offs Hdim Hb Ho _) z). unfold positions_fit, volume in Hpos. destruct HI. lia.
Qed.
Lemma machine_space z k : 0 <= z <= kmax I -> m_kernel_space I z k <-> kernel_space z k.
Proof.
  intros Hz. unfold m_kernel_space, kernel_space. destruct (Z.eq_dec z 0) as [->|Hn].
  - replace (sz I (0 - 1)) with (2 * kmax I + 1). 2:{ unfold sz. replace (0 - 1) with (2 * kmax I + 1 + (-1) * (2 * kmax I + 2)) by ring. rewrite Z.mod_add by lia. rewrite Z.mod_small by lia. reflexivity. }
    unfold to_coord. destruct (2 * kmax I + 1 <=? kmax I) eqn:A; lia.
  - rewrite sz_ok by lia. unfold to_coord. rewrite (proj2 (Z.leb_le _ _)) by lia. reflexivity.
Qed.
Lemma is_partition_ext A (S T : A -> Prop) pieces : (forall a, S a <-> T a) -> is_partition S pieces -> is_partition T pieces.
Proof.
  intros H (P1 & P2 & P3). split; [|split].
  - intros a Ha. apply P1, H, Ha.
  - exact P2.
  - intros m a Hm Ha. apply H. eapply P3; eassumption.
Qed.
Variable sorted : list (point * E).
Hypothesis Hperm : Permutation offs sorted.
Lemma sorted_fits : box_fits I (lo b) (hi b) /\ (forall oe, In oe sorted -> offset_fits I (lo b) (hi b) (fst oe)) /\ positions_fit I b sorted.
Proof.
  destruct (fits_of Hne Hod Hfit) as [Hb Ho]. split; [exact Hb|]. split.
  - intros oe Hin. apply Ho. eapply Permutation_in; [apply Permutation_sym; exact Hperm|exact Hin].
  - unfold positions_fit in *. rewrite <- (Permutation_length Hperm). exact Hpos.
Qed.
Lemma machine_coo_task linear fuel o m : (linear = true -> volume b <= cmax I) ->
  (if linear then m_fill_linearized_coo_task I fuel o b m sorted else m_fill_coo_task I fuel o b m sorted) =
  (if linear then fill_linearized_coo_task fuel o b m sorted else fill_coo_task fuel o b m sorted).
Proof.
  intros Hl. destruct sorted_fits as (Hb & Ho & Hp). destruct linear.
  - apply (m_fill_coo_gen_ok HI Hne Hb Ho Hp). apply enc_lin_ok; [exact HI|]. apply Hl. reflexivity.
  - apply (m_fill_coo_gen_ok HI Hne Hb Ho Hp). apply enc_id_ok.
Qed.
Lemma machine_csr_task fuel o m r : m_fill_csr_task I fuel o b m r sorted = fill_csr_task fuel o b m r sorted.
Proof. destruct sorted_fits as (Hb & Ho & Hp). apply (m_fill_csr_gen_ok HI Hne Hb Ho Hp). apply enc_id_ok. Qed.
Lemma machine_lin_csr_task fuel o m r : volume b <= cmax I -> dlo m <= Z.of_nat (length offs) * volume b + 1 -> dlo r <= volume b ->
  m_fill_linearized_csr_task I fuel o b m r sorted = fill_linearized_csr_task fuel o b m r sorted.
Proof. intros Hv Hm Hr. destruct sorted_fits as (Hb & Ho & Hp). apply (m_fill_linearized_csr_ok HI Hne Hb Ho Hp); try assumption; rewrite <- (Permutation_length Hperm); assumption. Qed.
End Agree.
Arguments is_partition_ext {A}.

Lemma Forall2_iff A B (R S : A -> B -> Prop) l l' : (forall a b, In a l -> R a b <-> S a b) -> Forall2 R l l' <-> Forall2 S l l'.
Proof.
  intros H. split; intros F; (induction F as [|a b l l' Hr F IH]; constructor; [apply H; [left; reflexivity|exact Hr]|apply IH; intros; apply H; right; assumption]).
Qed.

Section Creators.
Variable I : int_types.
Hypothesis HI : int_types_ok I.
Variable E : Type.
Variable ltE : E -> E -> bool.
Variables (b : rect) (offs : list (point * E)).
Hypothesis Hdim : lo b <> [].
Hypothesis Hne : nonempty_box b.
Hypothesis Hod : offsets_dim b offs.
Hypothesis Hfit : coordinates_fit I b offs.
Hypothesis Hpos : positions_fit I b offs.
Lemma machine_partition fuel size pieces : calculate_stencil_size fuel b offs = Ok size -> is_partition (m_kernel_space I size) pieces <-> is_partition (kernel_space size) pieces.
Proof.
  intros Hs. pose proof (@size_bound I HI E b offs Hdim Hne Hod Hfit Hpos fuel size Hs) as Hb. assert (0 <= size <= kmax I) by (unfold positions_fit in Hpos; destruct HI; lia).
  split; apply is_partition_ext; intros k; [|symmetry]; apply machine_space; try exact HI; assumption.
Qed.
(** the machine program behaves exactly as the program on unbounded integers *)
Lemma machine_create_coo linear fuel o sorted pieces tr size : (linear = true -> volume b <= cmax I) ->
  m_create_coo_stencil I ltE linear fuel o b offs sorted pieces tr size <-> create_coo_stencil ltE linear fuel o b offs sorted pieces tr size.
Proof.
  intros Hl. unfold m_create_coo_stencil, create_coo_stencil. rewrite machine_size by assumption.
  split; intros (H1 & H2 & H3 & ts & H4 & H5); (split; [exact H1|]; split; [apply (@machine_partition fuel); assumption|]; split; [exact H3|]; exists ts; split; [|exact H5]);
    (eapply Forall2_iff; [|exact H4]; intros m t _; cbn beta; destruct H3 as [H3 _]; rewrite (@machine_coo_task I HI E b offs Hne Hod Hfit Hpos sorted H3 linear fuel o m Hl); reflexivity).
Qed.
Lemma machine_create_csr fuel o sorted pieces tr size :
  m_create_csr_stencil I ltE fuel o b offs sorted pieces tr size <-> create_csr_stencil ltE fuel o b offs sorted pieces tr size.
Proof.
  unfold m_create_csr_stencil, create_csr_stencil. rewrite machine_size by assumption.
  split; intros (H1 & H2 & H2' & H3 & ts & H4 & H5); (split; [exact H1|]; split; [apply (@machine_partition fuel); assumption|]; split; [exact H2'|]; split; [exact H3|]; exists ts; split; [|exact H5]);
    (eapply Forall2_iff; [|exact H4]; intros m t _; cbn beta; destruct H3 as [H3 _]; rewrite (@machine_csr_task I HI E b offs Hne Hod Hfit Hpos sorted H3 fuel o); reflexivity).
Qed.
Lemma machine_create_lin_csr fuel o sorted pieces tr size : volume b <= cmax I -> Forall (fun m : dom1 * dom1 => dlo (fst m) <= size + 1) pieces ->
  m_create_linearized_csr_stencil I ltE fuel o b offs sorted pieces tr size <-> create_linearized_csr_stencil ltE fuel o b offs sorted pieces tr size.
Proof.
  intros Hv Hm. unfold m_create_linearized_csr_stencil, create_linearized_csr_stencil. rewrite machine_size by assumption. rewrite Forall_forall in Hm.
  split; intros (H1 & H2 & H2' & Hd & H3 & ts & H4 & H5); (split; [exact H1|]; split; [apply (@machine_partition fuel); assumption|]; split; [exact H2'|]; split; [exact Hd|]; split; [exact H3|]; exists ts; split; [|exact H5]);
    (pose proof (@size_bound I HI E b offs Hdim Hne Hod Hfit Hpos fuel size H1) as Hb; eapply Forall2_iff; [|exact H4]; intros m t Hin; cbn beta; destruct H3 as [H3 _];
     rewrite Forall_forall in Hd; destruct (Hd m Hin) as [_ [_ Hd2]]; specialize (Hm m Hin);
     rewrite (@machine_lin_csr_task I HI E b offs Hdim Hne Hod Hfit Hpos sorted H3 fuel o (fst m) (snd m)); [reflexivity|exact Hv|lia|exact Hd2]).
Qed.
End Creators.

(** ** C64 *)
(** If everything fits, nothing overflows and the machine program stores what it should. *)
Theorem C64_machine_coo_stencil : forall (I : int_types) (E : Type) (ltE : E -> E -> bool) linear o b (offs sorted : list (point * E)),
  int_types_ok I -> lo b <> [] -> nonempty_box b -> offsets_dim b offs -> coordinates_fit I b offs -> positions_fit I b offs ->
  (linear = true -> volume b <= cmax I) ->
  (Permutation offs sorted -> exists F, forall fuel m, (F <= fuel)%nat ->
     m_calculate_stencil_size I fuel b offs = Ok (Z.of_nat (length (in_bounds_pairs b offs))) /\
     exists r, (if linear then m_fill_linearized_coo_task I fuel o b m sorted else m_fill_coo_task I fuel o b m sorted) = Ok r) /\
  (forall fuel pieces tr size (s : loc -> cell E),
     m_create_coo_stencil I ltE linear fuel o b offs sorted pieces tr size ->
     exists contents,
       size = Z.of_nat (length contents) /\
       Permutation contents (map triple_of (in_bounds_pairs b offs)) /\
       StronglySorted (triple_before ltE o) contents /\
       holds_coo (stored linear o b) (run loc_eq_dec tr s) contents).
Proof.
  intros I E ltE linear o b offs sorted HI H1 Hn H3 Hf Hp Hl. pose proof (nonempty_wf _ Hn) as H2. split.
  - intros Hs. destruct (proj1 (@C20_stencil_size_exact E b offs H1 H2 H3)) as [F1 HF1].
    destruct (@C24_coo_fill_completes E linear o b sorted H2) as [F2 HF2].
    exists (Nat.max F1 F2). intros fuel m Hfu. split; [rewrite machine_size by assumption; apply HF1; lia|].
    rewrite (@machine_coo_task I HI E b offs Hn H3 Hf Hp sorted Hs linear fuel o m Hl). apply HF2. lia.
  - intros fuel pieces tr size s Hc. apply (@machine_create_coo I HI E ltE b offs H1 Hn H3 Hf Hp) in Hc; [|exact Hl]. eapply C24_coo_stencil_contents; eassumption.
Qed.
Theorem C64_machine_csr_stencil : forall (I : int_types) (E : Type) (ltE : E -> E -> bool) o b (offs sorted : list (point * E)),
  int_types_ok I -> lo b <> [] -> nonempty_box b -> offsets_dim b offs -> coordinates_fit I b offs -> positions_fit I b offs ->
  (Permutation offs sorted -> exists F, forall fuel m r, (F <= fuel)%nat ->
     m_calculate_stencil_size I fuel b offs = Ok (Z.of_nat (length (in_bounds_pairs b offs))) /\
     exists x, m_fill_csr_task I fuel o b m r sorted = Ok x) /\
  (forall fuel pieces tr size (s : loc -> cell E),
     m_create_csr_stencil I ltE fuel o b offs sorted pieces tr size ->
     exists contents rows first last,
       size = Z.of_nat (length contents) /\
       Permutation contents (map triple_of (in_bounds_pairs b offs)) /\
       StronglySorted (triple_before ltE o) contents /\
       NoDup rows /\ (forall p, In p rows <-> in_box b p) /\
       contiguous_intervals (length rows) size first last /\
       (forall i p k t, nth_error rows i = Some p -> nth_error contents k = Some t ->
          (first i <= Z.of_nat k <= last i <-> fst (fst t) = p)) /\
       holds_csr (fun p => p) (run loc_eq_dec tr s) contents rows first last).
Proof.
  intros I E ltE o b offs sorted HI H1 Hn H3 Hf Hp. pose proof (nonempty_wf _ Hn) as H2. split.
  - intros Hs. destruct (proj1 (@C20_stencil_size_exact E b offs H1 H2 H3)) as [F1 HF1].
    destruct (fill_csr_terminates E o b (fun p => p) sorted H2) as [F2 HF2].
    exists (Nat.max F1 F2). intros fuel m r Hfu. split; [rewrite machine_size by assumption; apply HF1; lia|].
    rewrite (@machine_csr_task I HI E b offs Hn H3 Hf Hp sorted Hs fuel o m r). apply HF2. lia.
  - intros fuel pieces tr size s Hc. apply (@machine_create_csr I HI E ltE b offs H1 Hn H3 Hf Hp) in Hc. eapply C26_csr_stencil_contents; eassumption.
Qed.
(** A piece of an index space of [n] points knows its bounds; the lower bound of an empty piece is at most [n + 1] (Realm's
    canonical empty rectangle is [1,0]). *)
Theorem C64_machine_linearized_csr_stencil : forall (I : int_types) (E : Type) (ltE : E -> E -> bool) o b (offs sorted : list (point * E)),
  int_types_ok I -> lo b <> [] -> nonempty_box b -> offsets_dim b offs -> coordinates_fit I b offs -> positions_fit I b offs ->
  volume b <= cmax I ->
  (Permutation offs sorted -> exists F, forall fuel (m r : dom1), (F <= fuel)%nat ->
     dom1_ok (Z.of_nat (length (in_bounds_pairs b offs)) + 1) m -> dom1_ok (volume b) r ->
     m_calculate_stencil_size I fuel b offs = Ok (Z.of_nat (length (in_bounds_pairs b offs))) /\
     exists x, m_fill_linearized_csr_task I fuel o b m r sorted = Ok x) /\
  (forall fuel pieces tr size (s : loc -> cell E),
     Forall (fun m : dom1 * dom1 => dlo (fst m) <= size + 1) pieces ->
     m_create_linearized_csr_stencil I ltE fuel o b offs sorted pieces tr size ->
     exists contents rows first last,
       size = Z.of_nat (length contents) /\
       Permutation contents (map triple_of (in_bounds_pairs b offs)) /\
       StronglySorted (triple_before ltE o) contents /\
       NoDup rows /\ (forall p, In p rows <-> in_box b p) /\
       contiguous_intervals (length rows) size first last /\
       (forall i p k t, nth_error rows i = Some p -> nth_error contents k = Some t ->
          (first i <= Z.of_nat k <= last i <-> fst (fst t) = p)) /\
       holds_csr (fun p => [linearize o b p]) (run loc_eq_dec tr s) contents rows first last).
Proof.
  intros I E ltE o b offs sorted HI H1 Hn H3 Hf Hp Hv. pose proof (nonempty_wf _ Hn) as H2. split.
  - intros Hs. destruct (proj1 (@C20_stencil_size_exact E b offs H1 H2 H3)) as [F1 HF1].
    assert (Hds : offsets_dim b sorted) by (unfold offsets_dim in *; eapply Permutation_Forall; eassumption).
    destruct (fill_lin_csr_terminates E o b sorted H1 Hn Hds) as [F2 HF2].
    exists (Nat.max F1 F2). intros fuel m r Hfu [Hm1 Hm2] [Hr1 Hr2].
    assert (Hsz : m_calculate_stencil_size I fuel b offs = Ok (Z.of_nat (length (in_bounds_pairs b offs)))) by (rewrite machine_size by assumption; apply HF1; lia).
    split; [exact Hsz|]. pose proof Hsz as Hsz'. rewrite machine_size in Hsz' by assumption. apply (@size_bound I HI E b offs H1 Hn H3 Hf Hp) in Hsz'.
    rewrite (@machine_lin_csr_task I HI E b offs H1 Hn H3 Hf Hp sorted Hs fuel o m r Hv); [|lia|exact Hr2]. apply HF2; try assumption; [lia|right; exact Hr2].
  - intros fuel pieces tr size s Hd Hc. apply (@machine_create_lin_csr I HI E ltE b offs H1 Hn H3 Hf Hp) in Hc; try assumption. eapply C26_linearized_csr_stencil_contents; eassumption.
Qed.

(** The conditions are needed: linearisation overflows exactly when the grid has more points than COORD_T has positive values, *)
Theorem C64_linearize_exactly_when_volume_fits : forall (I : int_types) o b p,
  int_types_ok I -> lo b <> [] -> in_box b p ->
  m_linearize I o b p = if volume b <=? cmax I then Ok (linearize o b p) else UB.
Proof.
  intros I o b p HI Hl Hp. destruct (volume b <=? cmax I) eqn:A; [apply m_linearize_ok; try assumption; lia|apply m_linearize_overflow; try assumption; lia].
Qed.

Lemma m_padd_inv I p o r : length p = length o -> m_padd I p o = Ok r -> forall i, (i < length p)%nat -> cmin I <= nth i p 0 + nth i o 0 <= cmax I.
Proof.
  revert o r. induction p as [|x p IH]; intros [|y o] r Hl H i Hi; cbn in Hl, Hi; try lia; try discriminate. cbn [m_padd] in H.
  destruct (cc I (x + y)) as [z| | |] eqn:A; cbn [obind] in H; try discriminate. destruct (m_padd I p o) as [r'| | |] eqn:B; cbn [obind] in H; try discriminate.
  destruct i as [|i]; cbn [nth]; [apply cc_inv in A; tauto|]. eapply IH; [lia|exact B|lia].
Qed.
Lemma m_row_loop_inv I E b emit (offs : list (point * E)) p k r : m_row_loop I b emit offs p k = Ok r -> forall oe, In oe offs -> exists q, m_padd I p (fst oe) = Ok q.
Proof.
  revert k r. induction offs as [|[o e] offs IH]; intros k r H oe Hin; [destruct Hin|]. cbn [m_row_loop] in H.
  destruct (m_padd I p o) as [q| | |] eqn:A; cbn [obind] in H; try discriminate. destruct Hin as [<-|Hin]; [exists q; exact A|].
  destruct (contains b q).
  - destruct (emit k q e) as [w| | |]; cbn [obind] in H; try discriminate. destruct (kc I (k + 1)) as [k1| | |]; cbn [obind] in H; try discriminate.
    destruct (m_row_loop I b emit offs p k1) as [r'| | |] eqn:C; cbn [obind] in H; try discriminate. eapply IH; eassumption.
  - eapply IH; eassumption.
Qed.
Lemma m_increment_inv I o b p r : m_increment I o b p = Ok r -> r = increment o b p.
Proof.
  unfold m_increment, increment. destruct o.
  - unfold increment_row_major. generalize (lo b) as l. generalize (hi b) as h. revert r. induction p as [|x p IH]; intros r h l; [cbn; destruct l, h; congruence|].
    destruct l as [|l0 l]; [cbn; congruence|]. destruct h as [|h0 h]; [cbn; congruence|]. cbn [m_increment_row_major_aux increment_row_major_aux].
    destruct (m_increment_row_major_aux I p l h) as [[q more]| | |] eqn:A; cbn [obind]; try discriminate. rewrite <- (IH _ _ _ A). destruct more; [congruence|].
    destruct (x >=? h0); [congruence|]. destruct (cc I (x + 1)) as [y| | |] eqn:B; cbn [obind]; try discriminate. apply cc_inv in B. destruct B as [-> _]. congruence.
  - unfold increment_column_major. generalize (lo b) as l. generalize (hi b) as h. revert r. induction p as [|x p IH]; intros r h l; [cbn; destruct l, h; congruence|].
    destruct l as [|l0 l]; [cbn; congruence|]. destruct h as [|h0 h]; [cbn; congruence|]. cbn [m_increment_column_major_aux increment_column_major_aux].
    destruct (x >=? h0).
    + destruct (m_increment_column_major_aux I p l h) as [[q more]| | |] eqn:A; cbn [obind]; try discriminate. rewrite <- (IH _ _ _ A). congruence.
    + destruct (cc I (x + 1)) as [y| | |] eqn:B; cbn [obind]; try discriminate. apply cc_inv in B. destruct B as [-> _]. congruence.
Qed.
Lemma m_fill_loop_inv E inc minc (mbody : point -> Z -> outcome (list (wstep E) * Z)) L e : forall fuel p k r,
  chain inc (p :: L) e -> (forall q x, minc q = Ok x -> x = inc q) -> m_fill_loop fuel minc mbody p k = Ok r ->
  forall q, In q (p :: L) -> exists j x, mbody q j = Ok x.
Proof.
  induction L as [|p' L IH]; intros fuel p k r Hc Hi H q Hq; (destruct fuel as [|fuel]; [discriminate|]); cbn [m_fill_loop] in H;
    destruct (mbody p k) as [wk| | |] eqn:A; cbn [obind] in H; try discriminate.
  - destruct Hq as [<-|[]]. eauto.
  - destruct (minc p) as [qm| | |] eqn:B; cbn [obind] in H; try discriminate. rewrite chain_cons2 in Hc. destruct Hc as [Hc1 Hc2].
    apply Hi in B. rewrite Hc1 in B. subst qm. cbn [fst snd] in H. destruct (m_fill_loop fuel minc mbody p' (snd wk)) as [r'| | |] eqn:C; cbn [obind] in H; try discriminate.
    destruct Hq as [<-|Hq]; [eauto|]. eapply IH; eassumption.
Qed.
(** a fill task adds every offset to every grid point, also where the sum is outside the grid: if such a sum is no COORD_T value the
    task is undefined, whatever its piece, *)
Theorem C64_fill_tasks_need_sums_to_fit : forall (I : int_types) (E : Type) o b (sorted : list (point * E)) p oe i,
  nonempty_box b -> offsets_dim b sorted -> in_box b p -> In oe sorted -> (i < length (lo b))%nat ->
  ~ (cmin I <= nth i p 0 + nth i (fst oe) 0 <= cmax I) ->
  (forall fuel m r, m_fill_coo_task I fuel o b m sorted <> Ok r) /\
  (forall fuel m r, m_fill_linearized_coo_task I fuel o b m sorted <> Ok r) /\
  (forall fuel m d r, m_fill_csr_task I fuel o b m d sorted <> Ok r).
Proof.
  intros I E o b sorted p oe i Hn Hd Hp Hin Hi Hbad. destruct (@box_chain b Hn o) as (L & HL & Hc & Hall & _). pose proof (nonempty_wf _ Hn) as Hwf.
  assert (Hpl : In p (lo b :: L)) by (rewrite <- HL; apply in_box_points; assumption).
  unfold offsets_dim in Hd. rewrite Forall_forall in Hd. pose proof (Hd oe Hin) as Hol. destruct Hp as [Hlp _].
  assert (G : forall q, m_padd I p (fst oe) <> Ok q). { intros q Hq. apply Hbad. eapply m_padd_inv; [|exact Hq|]; lia. }
  split; [|split].
  - intros fuel m r H. destruct (@m_fill_loop_inv E _ _ _ L _ fuel (lo b) 0 r Hc (@m_increment_inv I o b) H p Hpl) as (j & x & Hb). destruct (@m_row_loop_inv _ _ _ _ _ _ _ _ Hb oe Hin) as [q Hq]. exact (G q Hq).
  - intros fuel m r H. destruct (@m_fill_loop_inv E _ _ _ L _ fuel (lo b) 0 r Hc (@m_increment_inv I o b) H p Hpl) as (j & x & Hb). destruct (@m_row_loop_inv _ _ _ _ _ _ _ _ Hb oe Hin) as [q Hq]. exact (G q Hq).
  - intros fuel m d r H. destruct (@m_fill_loop_inv E _ _ _ L _ fuel (lo b) 0 r Hc (@m_increment_inv I o b) H p Hpl) as (j & x & Hb).
    unfold m_csr_body in Hb. cbn [m_enc_id obind] in Hb. destruct (m_row_loop I b (m_emit_csr m_enc_id m) sorted p j) as [wk| | |] eqn:Q; cbn [obind] in Hb; try discriminate.
    destruct (@m_row_loop_inv _ _ _ _ _ _ _ _ Q oe Hin) as [q Hq]. exact (G q Hq).
Qed.
Lemma m_slice_loop_max I E sub l0 mn mx (offs : list (point * E)) : forall fuel i r z, i <= cmax I -> m_slice_loop I fuel sub l0 (cmax I) mn mx offs i r <> Ok z.
Proof.
  induction fuel as [|f IH]; intros i r z Hi; [discriminate|]. cbn [m_slice_loop]. rewrite (proj2 (Z.leb_le _ _) Hi).
  destruct (m_sub_offsets I l0 (cmax I) i offs) as [subs| | |]; cbn [obind]; try discriminate. destruct (length subs =? length offs)%nat.
  - destruct (cc I (l0 - mn)) as [first| | |]; cbn [obind]; try discriminate. unfold oassert. destruct (i =? first); [|discriminate].
    destruct (cc I (cmax I - mx)) as [inew| | |]; cbn [obind]; try discriminate. destruct (inew >=? i); [|discriminate].
    destruct (cc I (inew - i)) as [d| | |]; cbn [obind]; try discriminate. destruct (cc I (d + 1)) as [n| | |]; cbn [obind]; try discriminate.
    destruct (sub subs) as [s| | |]; cbn [obind]; try discriminate. destruct (cc I (inew + 1)) as [i'| | |] eqn:B; cbn [obind]; try discriminate.
    apply cc_inv in B. apply IH. lia.
  - destruct (sub subs) as [s| | |]; cbn [obind]; try discriminate. destruct (cc I (i + 1)) as [i'| | |] eqn:B; cbn [obind]; try discriminate. apply cc_inv in B. apply IH. lia.
Qed.
(** and in two or more dimensions the size of a grid that reaches the largest coordinate is never computed. *)
Theorem C64_size_needs_room_above : forall (I : int_types) (E : Type) b (offs : list (point * E)),
  (2 <= length (lo b))%nat -> nonempty_box b -> offs <> [] -> nth 0 (hi b) 0 = cmax I ->
  forall fuel z, m_calculate_stencil_size I fuel b offs <> Ok z.
Proof.
  intros I E b offs Hl [Hlen Hn] Ho Hh fuel z. unfold m_calculate_stencil_size. specialize (Hn 0%nat). destruct (lo b) as [|l0 [|l1 l]]; cbn in Hl; try lia. destruct (hi b) as [|h0 h]; [discriminate|].
  cbn in Hh. subst h0. specialize (Hn ltac:(cbn; lia)). cbn in Hn. cbn [m_stencil_size_aux]. destruct offs as [|oe offs]; [congruence|]. apply m_slice_loop_max. exact Hn.
Qed.

(** Examples: a million by a thousand grid points with the 5-point stencil and COORD_T = int; with a million by ten thousand the
    linearised matrix needs long long. *)
Definition five_point : list (point * Z) := [([0;0],4); ([0;-1],-1); ([0;1],-1); ([-1;0],-1); ([1;0],-1)].
Lemma five_point_fits I n m : int_types_ok I -> 1 <= n -> 1 <= m -> n <= cmax I -> m <= cmax I -> coordinates_fit I (mk_rect [0;0] [n-1;m-1]) five_point.
Proof.
  intros [H1 H2] Hn Hm Hn' Hm'. split.
  - intros [|[|i]] Hi; cbn in Hi |- *; try lia.
  - intros oe i Hin Hi. unfold five_point in Hin. cbn in Hi. destruct i as [|[|i]]; [| |lia]; (repeat destruct Hin as [<-|Hin]; [cbn; lia..|destruct Hin]).
Qed.
Example C64_int_example : let b := mk_rect [0;0] [999999;999] in
  int_types_ok int_S32 /\ lo b <> [] /\ nonempty_box b /\ offsets_dim b five_point /\ coordinates_fit int_S32 b five_point /\ positions_fit int_S32 b five_point /\ volume b <= cmax int_S32.
Proof.
  cbv zeta. split; [exact int_S32_ok|]. split; [discriminate|]. split; [split; [reflexivity|]; intros [|[|i]] Hi; cbn in *; lia|]. split; [repeat constructor|].
  split; [apply (@five_point_fits int_S32 1000000 1000 int_S32_ok); cbn; lia|]. split; [unfold positions_fit|]; cbn; lia.
Qed.
Example C64_int_overflow_example : m_linearize int_S32 ROW_MAJOR (mk_rect [0;0] [999999;9999]) [0;0] = UB /\
  m_linearize int_S64 ROW_MAJOR (mk_rect [0;0] [999999;9999]) [999999;9999] = Ok 9999999999.
Proof. split; reflexivity. Qed.
(** the 1-D stencil (0, +1) on a grid ending at the largest int *)
Example C64_sum_overflow_example : forall fuel m r, m_fill_coo_task int_S32 fuel ROW_MAJOR (mk_rect [0] [2 ^ 31 - 1]) m [([0], 1); ([1], 2)] <> Ok r.
Proof.
  intros fuel m r. refine (proj1 (@C64_fill_tasks_need_sums_to_fit int_S32 Z ROW_MAJOR (mk_rect [0] [2 ^ 31 - 1]) [([0], 1); ([1], 2)] [2 ^ 31 - 1] ([1], 2) 0%nat _ _ _ _ _ _) fuel m r).
  - split; [reflexivity|]. intros [|i] Hi; cbn in *; lia.
  - repeat constructor.
  - split; [reflexivity|]. split; [reflexivity|]. intros [|i] Hi; cbn in *; lia.
  - right; left; reflexivity.
  - cbn. lia.
  - cbn. lia.
Qed.
