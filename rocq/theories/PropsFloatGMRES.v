(** PropsFloatGMRES: property C83 (GMRES in float and double). *)
From Coq Require Import Reals Lra Lia ZArith.
From Coq Require Import Floats.SpecFloat.
From Verif Require Import Base Index Outcome Sched Async Arith Launch Vector PartitionSpec VectorFacts LaunchFacts Matrix MatrixSpec MatrixFacts
  MatvecFacts Builder BuilderFacts Exec ExactSum LinAlg Planner PlannerFacts PlannerSetup Solvers PropsVector PropsMatrix PropsPlanner PropsSolver SolverFacts PropsCG PropsCGConv
  Float FloatSum PropsFloat FloatPlanner FloatCGSpec PropsFloatCG FloatOps FloatBiCGSpec FloatBiCG PropsFloatBiCG FloatGMRESSpec FloatGMRES.
Set Implicit Arguments.

Ltac rng := unfold SOL, RHS, krylov_basis in *; cbn [length] in *; lia.
Ltac kv :=
  first
  [ eassumption
  | match goal with
    | K : fkeeps _ _ _ _ ?s1 ?s2 |- vector_contains _ _ ?s2 _ _ => apply (proj1 K); [rng|rng|kv]
    | K : fkeeps_all _ _ _ ?s1 ?s2 |- vector_contains _ _ ?s2 _ _ => apply (proj1 K); kv
    end ].
Ltac kf :=
  first
  [ eassumption
  | match goal with
    | K : fkeeps _ _ _ _ ?s1 ?s2 |- ?s2 (LFut _) = _ => rewrite (proj2 K); kf
    | K : fkeeps_all _ _ _ ?s1 ?s2 |- ?s2 (LFut _) = _ => rewrite (proj2 K) by (cbn [next next_fut] in *; lia); kf
    end ].

Section Run.
Variables p e : Z.
Hypothesis Hpe : format p e.
Variable lg : legion.
Hypothesis Hlg : legion_ok lg.
Variable red : nat -> list spec_float -> spec_float.
Notation A := (ieee p e).
Hypothesis Hred : legal_reduction A red.
Variable cs : list (setup_call spec_float).
Hypothesis Hdom : forall m d r, In (m, d, r) (mats_of cs) -> d < length (sols_of cs).
Hypothesis Hfe : float_entries p e cs.
Notation U := (unknowns lg cs).
Notation n := (length (sols_of cs)).
Notation store := (store loc spec_float).
Hypothesis Hn : 0 < n.
Variable m : nat. (* restart *)
Variables x0 b : unknown -> spec_float.
Hypothesis Fx0 : forall u, In u U -> is_float p e (x0 u).
Hypothesis Fb : forall u, In u U -> is_float p e (b u).
Notation a := (coefficient_of fvalue cs).
Notation mag := (coefficient_of (fun x => Rabs (fvalue x)) cs).
Notation count := (entry_count lg cs).
Notation neg1 := (aneg A (a1 A)).
Notation one := (a1 A).
Notation form := (gform p e U a mag count b neg1 one m).
Notation kb := krylov_basis.
Notation dots := (dot_terms U).
Notation near := (near_product p e U a mag count).
Lemma one_float : is_float p e one.
Proof. destruct Hpe as [Hp He]. apply normalize_float; assumption. Qed.

Section Cycle.
Variable pl : planner spec_float.
Hypothesis Hw : working lg cs (m + 1) pl.
Variable x : unknown -> spec_float.
Hypothesis Fx : forall u, In u U -> is_float p e (x u).
Variable fneg1 : nat.
Notation contains := (vector_contains lg pl).
(** the store while columns before [J] are complete *)
Definition gvecs (s : store) (t : fcycle unknown) (J : nat) : Prop :=
  contains s SOL x /\ contains s RHS b /\ forall i, i <= J -> contains s (kb i) (fg_q t i).
Definition gfuts (st : ist) (s : store) (h : nat -> nat -> scalar) : Prop :=
  (fneg1 < next_fut st /\ s (LFut fneg1) = neg1) /\ (forall i jj, h i jj < next_fut st) /\ (forall i jj, jj + 1 < i -> s (LFut (h i jj)) = a0 A).
Definition gcols (s : store) (h : nat -> nat -> scalar) (t : fcycle unknown) (J : nat) : Prop :=
  forall j i, j < J -> i <= S j -> s (LFut (h i j)) = fg_h t i j.
Lemma gvecs_keeps vi s s' t J : fkeeps lg (m + 1) pl vi s s' -> J + 2 < vi -> J <= m -> gvecs s t J -> gvecs s' t J.
Proof.
  intros [K _] Hv Hj (V1 & V2 & V3). split; [apply K; [rng|rng|exact V1]|]. split; [apply K; [rng|rng|exact V2]|].
  intros i Hi. apply K; [rng|rng|apply V3; exact Hi].
Qed.
Lemma gvecs_keeps_all st s s' t J : fkeeps_all lg pl st s s' -> gvecs s t J -> gvecs s' t J.
Proof. intros [K _] (V1 & V2 & V3). split; [apply K; exact V1|]. split; [apply K; exact V2|]. intros i Hi. apply K. apply V3. exact Hi. Qed.
Lemma gfuts_keeps vi st s s' h : fkeeps lg (m + 1) pl vi s s' -> gfuts st s h -> gfuts st s' h.
Proof. intros [_ K] ([F1 F1'] & F2 & F3). repeat split; intros; rewrite ?K; auto. Qed.
Lemma gfuts_keeps_all st st' s s' h : fkeeps_all lg pl st s s' -> next_fut st <= next_fut st' -> gfuts st s h -> gfuts st' s' h.
Proof. intros [_ K] L ([F1 F1'] & F2 & F3). repeat split; intros; rewrite ?K; auto; try lia. specialize (F2 i jj). lia. Qed.
Lemma gfuts_set st s h i j f : gfuts st s h -> f < next_fut st -> i <= j + 1 -> gfuts st s (set_h h i j f).
Proof.
  intros (F1 & F2 & F3) L Hi. split; [exact F1|]. split; intros i' j'; unfold set_h; destruct (Nat.eqb_spec i' i), (Nat.eqb_spec j' j); cbn [andb]; auto. intros Hij. lia.
Qed.
Lemma gcols_keeps vi s s' h t J : fkeeps lg (m + 1) pl vi s s' -> gcols s h t J -> gcols s' h t J.
Proof. intros [_ K] H j i Hj Hi. rewrite K. apply H; assumption. Qed.
Lemma gcols_keeps_all st s s' h t J : fkeeps_all lg pl st s s' -> (forall i jj, h i jj < next_fut st) -> gcols s h t J -> gcols s' h t J.
Proof. intros [_ K] L H j i Hj Hi. rewrite K by apply L. apply H; assumption. Qed.
Lemma gcols_set s h t J i j f : gcols s h t J -> J <= j -> gcols s (set_h h i j f) t J.
Proof. intros H Hj j' i' Hj' Hi'. unfold set_h. destruct (Nat.eqb_spec i' i), (Nat.eqb_spec j' j); cbn [andb]; try lia; apply H; assumption. Qed.
(** the vector of column [J] after [k] removals *)
Fixpoint wcol (q : nat -> unknown -> spec_float) (h : nat -> spec_float) (w0 : unknown -> spec_float) (k : nat) : unknown -> spec_float :=
  match k with 0 => w0 | S k' => fun u => sf_fma p e (SFopp (h k')) (q k' u) (wcol q h w0 k' u) end.
Lemma wcol_ext q h h' w0 k : (forall i, i < k -> h i = h' i) -> wcol q h w0 k = wcol q h' w0 k.
Proof. induction k as [|k IH]; intros H; [reflexivity|]. cbn [wcol]. rewrite IH by (intros i Hi; apply H; lia). rewrite (H k) by lia. reflexivity. Qed.

Lemma fgmres_start st s h : gfuts st s h -> contains s SOL x -> contains s RHS b ->
  wp (gmres_start A lg red pl fneg1) (fun _ st' s' => exists t, form x 0 t /\ gvecs s' t 0 /\ gfuts st' s' h) st s.
Proof.
  intros F HX HB. unfold gmres_start, scalar_rsqrt. assert (PE := Hpe). destruct PE as [Hp He].
  apply wp_bind. apply (@wpf_matvec p e Hpe lg Hlg cs Hdom Hfe (m + 1) pl Hw (kb 0) SOL x); [rng|rng|rng|exact HX|exact Fx|]. intros s1 ax V1 M1 K1. assert (G1 := gfuts_keeps K1 F).
  apply wp_bind. apply (@wpf_xpay p e lg Hlg cs (m + 1) pl Hw (kb 0) [fneg1] RHS neg1 b ax); [rng|rng|rng|rng|exact V1|kv|exact (proj2 (proj1 G1))|].
  intros s2 V2 K2. assert (G2 := gfuts_keeps K2 G1). set (r := fun u => sf_fma p e neg1 (ax u) (b u)) in *.
  assert (Fr : forall u, In u U -> is_float p e (r u)) by (intros u Hu; unfold r; apply fma_float; auto; [apply neg1_float; exact Hpe|apply (M1 u Hu)]).
  apply wp_bind. apply (@wpf_dot p e Hpe lg Hlg red Hred cs (m + 1) pl Hw (kb 0) (kb 0) r r); [exact Hn|rng|rng|exact V2|exact V2|intros u Hu; split; auto|].
  intros fr st3 s3 A1 A2 _ V3 K3. assert (G3 := gfuts_keeps_all st3 K3 ltac:(lia) G2). remember (s3 (LFut fr)) as rr eqn:Er. symmetry in Er.
  apply wp_bind. apply (@wpf_scalar lg pl). intros s4 V4 K4. cbn [map on1] in V4. rewrite Er in V4. cbn [ieee adiv asqrt] in V4.
  assert (G4 := gfuts_keeps_all (next st3) K4 ltac:(cbn; lia) G3).
  apply (@wpf_scal p e lg Hlg cs (m + 1) pl Hw (kb 0) (next_fut st3) (SFdiv p e one (SFsqrt p e rr)) r); [rng|kv|exact V4|]. intros s5 V5 K5.
  exists (mk_fcycle ax r rr (fun _ u => SFmul p e (SFdiv p e one (SFsqrt p e rr)) (r u)) (fun _ _ => b) (fun _ _ => neg1) (fun _ => neg1) (fun _ => b)).
  split; [|split; [|apply (gfuts_keeps K5 G4)]].
  - constructor; cbn [fg_ax fg_r fg_rr fg_q fg_w fg_h fg_d]; try (intros; lia); auto.
  - split; [kv|]. split; [kv|]. intros i Hi. replace i with 0 by lia. exact V5.
Qed.

Lemma fgmres_orth J st s h t w0 : J < m -> gvecs s t J -> gfuts st s h -> gcols s h t J -> contains s (kb (J + 1)) w0 ->
  (forall i u, i <= J -> In u U -> is_float p e (fg_q t i u)) -> (forall u, In u U -> is_float p e (w0 u)) ->
  wp (gmres_orthogonalise A lg red pl J h) (fun h' st' s' => exists hJ, gvecs s' t J /\ gfuts st' s' h' /\ gcols s' h' t J /\ contains s' (kb (J + 1)) (wcol (fg_q t) hJ w0 (S J)) /\
    (forall u, In u U -> is_float p e (wcol (fg_q t) hJ w0 (S J) u)) /\
    forall k, k <= J -> approx p e False (dots (fg_q t k) (wcol (fg_q t) hJ w0 k)) (hJ k) /\ s' (LFut (h' k J)) = hJ k) st s.
Proof.
  intros HJ HV HF HC HA Fq Fw. unfold gmres_orthogonalise. assert (PE := Hpe). destruct PE as [Hp He].
  eapply wp_conseq; [apply (@wp_mfold _ nat _ _ (fun done h' st' s' => exists hJ, gvecs s' t J /\ gfuts st' s' h' /\ gcols s' h' t J /\ contains s' (kb (J + 1)) (wcol (fg_q t) hJ w0 (length done)) /\
    (forall u, In u U -> is_float p e (wcol (fg_q t) hJ w0 (length done) u)) /\
    forall k, k < length done -> approx p e False (dots (fg_q t k) (wcol (fg_q t) hJ w0 k)) (hJ k) /\ s' (LFut (h' k J)) = hJ k) (seq 0 (J + 1)))|].
  - intros done k rest h' st' s' E (hJ & V & F & C & VA & Fv & H).
    assert (Hk : k = length done /\ k <= J).
    { assert (E2 := f_equal (fun l => nth (length done) l 0) E). cbv beta in E2. rewrite app_nth2, Nat.sub_diag in E2 by lia. cbn [nth] in E2.
      assert (L := f_equal (@length _) E). rewrite seq_length, app_length in L. cbn [length] in L. rewrite seq_nth in E2 by lia. lia. }
    destruct Hk as [Hk Hkj]. rewrite <- Hk in *. rewrite app_length, <- Hk. cbn [length]. replace (k + 1) with (S k) by lia.
    set (wk := wcol (fg_q t) hJ w0 k) in *.
    apply wp_bind. apply (@wpf_dot p e Hpe lg Hlg red Hred cs (m + 1) pl Hw (kb k) (kb (J + 1)) (fg_q t k) wk); [exact Hn|rng|rng|apply V; lia|exact VA|intros u Hu; split; [apply Fq; [lia|exact Hu]|auto]|].
    intros f st1 s1 A1 A2 _ V1 K1. assert (F1 := gfuts_keeps_all st1 K1 ltac:(lia) F). assert (V1' := gvecs_keeps_all K1 V).
    assert (C1 := gcols_keeps_all K1 (proj1 (proj2 F)) C). assert (F1' := @gfuts_set st1 s1 h' k J f F1 A2 ltac:(lia)). assert (C1' := @gcols_set s1 h' t J k J f C1 (le_n _)).
    remember (s1 (LFut f)) as hv eqn:Ev. symmetry in Ev. unfold scalar_neg.
    apply wp_bind. apply (@wpf_scalar lg pl). intros s2 V2 K2. cbn [map on1] in V2. unfold set_h in V2 at 1. rewrite !Nat.eqb_refl in V2. cbn [andb] in V2.
    rewrite Ev in V2. cbn [ieee aneg] in V2. assert (F2 := gfuts_keeps_all (next st1) K2 ltac:(cbn; lia) F1'). assert (V2' := gvecs_keeps_all K2 V1').
    assert (C2 := gcols_keeps_all K2 (proj1 (proj2 F1')) C1').
    apply wp_bind. apply (@wpf_axpy p e lg Hlg cs (m + 1) pl Hw (kb (J + 1)) [next_fut st1] (kb k) (SFopp hv) (fg_q t k) wk);
      [rng|rng|rng|rng|kv|apply V2'; lia|exact V2|].
    intros s3 V3 K3. apply wp_ret. set (hJ' := fun i => if i =? k then hv else hJ i).
    assert (Eh : forall i, i < k -> hJ' i = hJ i) by (intros i Hi; unfold hJ'; rewrite (proj2 (Nat.eqb_neq i k)) by lia; reflexivity).
    assert (Ek : hJ' k = hv) by (unfold hJ'; rewrite Nat.eqb_refl; reflexivity).
    assert (Ew : forall i, i <= k -> wcol (fg_q t) hJ' w0 i = wcol (fg_q t) hJ w0 i) by (intros i Hi; apply wcol_ext; intros i' Hi'; apply Eh; lia).
    exists hJ'. split; [apply (gvecs_keeps K3); [rng|lia|exact V2']|]. split; [apply (gfuts_keeps K3 F2)|]. split; [apply (gcols_keeps K3 C2)|].
    split; [cbn [wcol]; rewrite Ew, Ek by lia; exact V3|]. split.
    + intros u Hu. cbn [wcol]. rewrite Ew, Ek by lia. apply fma_float; first [exact Hp|exact He|apply opp_float; apply V1|apply Fq; [lia|exact Hu]|apply Fv; exact Hu].
    + intros i Hi. destruct (Nat.eq_dec i k) as [-> |Ne].
      * rewrite Ek, Ew by lia. split; [exact V1|]. unfold set_h. rewrite !Nat.eqb_refl. cbn [andb]. kf.
      * rewrite Eh, Ew by lia. destruct (H i ltac:(lia)) as [H1 H2]. split; [exact H1|]. unfold set_h. rewrite (proj2 (Nat.eqb_neq i k)) by lia. cbn [andb].
        assert (L := proj1 (proj2 F) i J). kf.
  - exists (fun _ => neg1). cbn [length wcol]. split; [exact HV|]. split; [exact HF|]. split; [exact HC|]. split; [exact HA|]. split; [exact Fw|]. intros k Hk. lia.
  - intros h' st' s' (hJ & V & F & C & VA & Fv & H). rewrite seq_length in VA, Fv, H. replace (J + 1) with (S J) in Fv, H by lia. exists hJ.
    split; [exact V|]. split; [exact F|]. split; [exact C|]. split; [replace (S J) with (J + 1) by lia; exact VA|]. split; [exact Fv|]. intros k Hk. apply H. lia.
Qed.

Definition cycle_vecs (s : store) (t : fcycle unknown) (j : nat) : Prop := gvecs s t (if j <? m then j else m - 1) /\ (0 < j -> j = m -> contains s (kb m) (fg_w t (m - 1) m)).
Lemma fgmres_arnoldi J st s h t : J < m -> form x J t -> cycle_vecs s t J -> gfuts st s h -> gcols s h t J ->
  wp (gmres_arnoldi A lg red pl m h J) (fun h' st' s' => exists t', form x (S J) t' /\ cycle_vecs s' t' (S J) /\ gfuts st' s' h' /\ gcols s' h' t' (S J)) st s.
Proof.
  intros HJ HG [HV _] HF HC. destruct (Nat.ltb_spec J m); [|lia]. unfold gmres_arnoldi. assert (PE := Hpe). destruct PE as [Hp He].
  destruct (gform_float Hpe Fb (neg1_float Hpe) one_float Fx HG) as (_ & _ & _ & _ & _ & Fq & _).
  assert (Fq' : forall i u, i <= J -> In u U -> is_float p e (fg_q t i u)) by (intros i u Hi Hu; apply Fq; [exact Hi|lia|exact Hu]).
  apply wp_bind. apply (@wpf_matvec p e Hpe lg Hlg cs Hdom Hfe (m + 1) pl Hw (kb (J + 1)) (kb J) (fg_q t J)); [rng|rng|rng|apply HV; lia|intros u Hu; apply Fq'; [lia|exact Hu]|]. intros s1 w0 V1 M1 K1.
  assert (F1 := gfuts_keeps K1 HF). assert (C1 := gcols_keeps K1 HC). assert (W1 : gvecs s1 t J) by (apply (gvecs_keeps K1); [rng|lia|exact HV]).
  assert (Fw0 : forall u, In u U -> is_float p e (w0 u)) by (intros u Hu; apply (M1 u Hu)).
  apply wp_bind. eapply wp_conseq; [apply (fgmres_orth HJ W1 F1 C1 V1 Fq' Fw0)|]. intros h2 st2 s2 (hJ & W2 & F2 & C2 & V2 & Fv & H2).
  set (wf := wcol (fg_q t) hJ w0 (S J)) in *.
  apply wp_bind. apply (@wpf_dot p e Hpe lg Hlg red Hred cs (m + 1) pl Hw (kb (J + 1)) (kb (J + 1)) wf wf); [exact Hn|rng|rng|exact V2|exact V2|intros u Hu; split; auto|].
  intros fd st3 s3 A1 A2 _ V3 K3. assert (F3 := gfuts_keeps_all st3 K3 ltac:(lia) F2). assert (W3 := gvecs_keeps_all K3 W2). assert (C3 := gcols_keeps_all K3 (proj1 (proj2 F2)) C2).
  remember (s3 (LFut fd)) as dJ eqn:Ed. symmetry in Ed. unfold scalar_sqrt, scalar_rsqrt.
  apply wp_bind. apply (@wpf_scalar lg pl). intros s4 V4 K4. cbn [map on1] in V4. rewrite Ed in V4. cbn [ieee asqrt] in V4.
  assert (F4 := gfuts_keeps_all (next st3) K4 ltac:(cbn; lia) F3). assert (W4 := gvecs_keeps_all K4 W3). assert (C4 := gcols_keeps_all K4 (proj1 (proj2 F3)) C3).
  assert (F4' := @gfuts_set (next st3) s4 h2 (J + 1) J (next_fut st3) F4 (ltac:(cbn; lia)) (le_n _)). assert (C4' := @gcols_set s4 h2 t J (J + 1) J (next_fut st3) C4 (le_n _)).
  assert (VW : contains s4 (kb (J + 1)) wf) by kv.
  set (hJ' := fun i => if i =? S J then SFsqrt p e dJ else hJ i).
  set (qn := fun u => SFmul p e (SFdiv p e one (SFsqrt p e dJ)) (wf u)).
  assert (Eh : forall i, i <= J -> hJ' i = hJ i) by (intros i Hi; unfold hJ'; rewrite (proj2 (Nat.eqb_neq i (S J))) by lia; reflexivity).
  assert (En : hJ' (S J) = SFsqrt p e dJ) by (unfold hJ'; rewrite Nat.eqb_refl; reflexivity).
  set (t' := add_column t J (wcol (fg_q t) hJ w0) hJ' dJ qn).
  assert (HG' : form x (S J) t').
  { apply gform_add; auto.
    - intros k Hk. rewrite Eh by lia. apply (H2 k Hk).
    - intros k u Hk. rewrite Eh by lia. reflexivity. }
  assert (HC' : forall sx, (forall c, c < next_fut (next st3) -> sx (LFut c) = s4 (LFut c)) -> gcols sx (set_h h2 (J + 1) J (next_fut st3)) t' (S J)).
  { intros sx Kx j i Hj Hi. rewrite Kx by (unfold set_h; destruct ((i =? J + 1) && (j =? J)); [cbn; lia|apply (proj1 (proj2 F4))]).
    unfold t'. cbn [add_column fg_h]. destruct (Nat.eqb_spec j J) as [-> |Ne].
    - destruct (Nat.eq_dec i (S J)) as [-> |Ni].
      + rewrite En. unfold set_h. replace (S J =? J + 1) with true by (symmetry; apply Nat.eqb_eq; lia). rewrite Nat.eqb_refl. cbn [andb]. exact V4.
      + rewrite Eh by lia. unfold set_h. replace (i =? J + 1) with false by (symmetry; apply Nat.eqb_neq; lia). cbn [andb].
        destruct (H2 i ltac:(lia)) as [_ E]. assert (L := proj1 (proj2 F2) i J). kf.
    - apply C4'; lia. }
  assert (Qt : forall i, i <= J -> fg_q t' i = fg_q t i) by (intros i Hi; unfold t'; cbn [add_column fg_q]; rewrite (proj2 (Nat.eqb_neq i (S J))) by lia; reflexivity).
  unfold cycle_vecs. destruct (Nat.ltb_spec (J + 1) m) as [L|L].
  - apply wp_bind. apply (@wpf_scalar lg pl). intros s5 V5 K5. cbn [map on1] in V5.
    replace (s4 (LFut fd)) with dJ in V5 by (symmetry; kf). cbn [ieee adiv asqrt] in V5.
    assert (F5 := gfuts_keeps_all (next (next st3)) K5 ltac:(cbn; lia) F4'). assert (W5 := gvecs_keeps_all K5 W4).
    apply wp_bind. apply (@wpf_scal p e lg Hlg cs (m + 1) pl Hw (kb (J + 1)) (next_fut (next st3)) (SFdiv p e one (SFsqrt p e dJ)) wf); [rng|kv|exact V5|]. intros s6 V6 K6.
    assert (W6 : gvecs s6 t J) by (apply (gvecs_keeps K6); [rng|lia|exact W5]). apply wp_ret. exists t'. split; [exact HG'|].
    split; [|split; [apply (gfuts_keeps K6 F5)|apply HC'; intros c Hc; rewrite (proj2 K6), (proj2 K5) by exact Hc; reflexivity]].
    destruct (Nat.ltb_spec (S J) m); [|lia]. split; [|lia]. destruct W6 as (X1 & X2 & X3). split; [exact X1|]. split; [exact X2|]. intros i Hi.
    destruct (Nat.eq_dec i (S J)) as [-> |Ne]; [|rewrite Qt by lia; apply X3; lia].
    unfold t'. cbn [add_column fg_q]. rewrite Nat.eqb_refl. replace (S J) with (J + 1) by lia. exact V6.
  - apply wp_ret. exists t'. split; [exact HG'|]. split; [|split; [exact F4'|apply HC'; reflexivity]]. destruct (Nat.ltb_spec (S J) m); [lia|]. split.
    + replace (m - 1) with J by lia. destruct W4 as (X1 & X2 & X3). split; [exact X1|]. split; [exact X2|]. intros i Hi. rewrite Qt by exact Hi. apply X3. exact Hi.
    + intros _ E. replace (m - 1) with J by lia. unfold t'. cbn [add_column fg_w]. rewrite Nat.eqb_refl. replace m with (S J) by lia. fold wf. replace (S J) with (J + 1) by lia. exact VW.
Qed.
Lemma fgmres_loop st s h t : form x 0 t -> gvecs s t 0 -> gfuts st s h ->
  wp (mfold (seq 0 m) h (gmres_arnoldi A lg red pl m)) (fun h' st' s' => exists t', form x m t' /\ cycle_vecs s' t' m /\ gfuts st' s' h' /\ gcols s' h' t' m) st s.
Proof.
  intros HG HV HF.
  eapply wp_conseq; [apply (@wp_mfold _ nat _ _ (fun done h' st' s' => exists t', form x (length done) t' /\ cycle_vecs s' t' (length done) /\ gfuts st' s' h' /\ gcols s' h' t' (length done)) (seq 0 m))|].
  - intros done k rest h' st' s' E (t' & G & V & F & C).
    assert (Hk : k = length done /\ k < m).
    { assert (E2 := f_equal (fun l => nth (length done) l 0) E). cbv beta in E2. rewrite app_nth2, Nat.sub_diag in E2 by lia. cbn [nth] in E2.
      assert (L := f_equal (@length _) E). rewrite seq_length, app_length in L. cbn [length] in L. rewrite seq_nth in E2 by lia. lia. }
    destruct Hk as [Hk Hkj]. rewrite <- Hk in *. rewrite app_length, <- Hk. cbn [length]. replace (k + 1) with (S k) by lia.
    apply (fgmres_arnoldi Hkj G V F C).
  - cbn [length]. exists t. split; [exact HG|]. split; [|split; [exact HF|intros j i Hj; lia]]. split; [|lia]. replace (if 0 <? m then 0 else m - 1) with 0 by (destruct m; reflexivity). exact HV.
  - intros h' st' s' H. rewrite seq_length in H. exact H.
Qed.
(** the solution after [j] additions *)
Fixpoint xacc (q : nat -> unknown -> spec_float) (j : nat) : unknown -> spec_float :=
  match j with 0 => x | S j' => fun u => sf_fma p e one (q j' u) (xacc q j' u) end.
Definition with_x (t : fcycle unknown) : fcycle unknown := mk_fcycle (fg_ax t) (fg_r t) (fg_rr t) (fg_q t) (fg_w t) (fg_h t) (fg_d t) (xacc (fg_q t)).
(** what one cycle leaves behind, besides the solution *)
Definition cycle_left (h : nat -> nat -> scalar) (s : store) (t : fcycle unknown) : Prop :=
  (forall i, i < m -> contains s (kb i) (fg_q t i)) /\ (0 < m -> contains s (kb m) (fg_w t (m - 1) m)) /\
  (forall i j, j < m -> i <= S j -> s (LFut (h i j)) = fg_h t i j) /\ (forall i j, j + 1 < i -> s (LFut (h i j)) = a0 A).
Lemma fgmres_cycle c st s : gm_pl c = pl -> gm_restart c = m -> gm_neg1 c = fneg1 -> gfuts st s (gm_h c) -> contains s SOL x -> contains s RHS b ->
  wp (gmres_step A lg red c) (fun c' st' s' => gm_pl c' = pl /\ gm_restart c' = m /\ gm_neg1 c' = fneg1 /\ gfuts st' s' (gm_h c') /\
    exists t, form x m t /\ gsum p e one x t /\ contains s' SOL (fg_x t m) /\ contains s' RHS b /\ cycle_left (gm_h c') s' t) st s.
Proof.
  intros Ec Er En HF HX HB. unfold gmres_step. rewrite Ec, Er, En.
  apply wp_bind. eapply wp_conseq; [apply (fgmres_start HF HX HB)|]. intros [] st1 s1 (t1 & G1 & V1 & F1).
  apply wp_bind. eapply wp_conseq; [apply (fgmres_loop G1 V1 F1)|]. intros h st2 s2 (t & G & [V2 V2'] & F2 & C2).
  apply wp_bind. apply (@wpf_scalar lg pl). intros s3 E3 K3. cbv beta in E3. assert (F3 := gfuts_keeps_all (next st2) K3 ltac:(cbn; lia) F2). assert (V3 := gvecs_keeps_all K3 V2).
  assert (C3 := gcols_keeps_all K3 (proj1 (proj2 F2)) C2).
  apply wp_bind.
  eapply wp_conseq; [apply (@wp_mfor _ nat _ (fun done st' s' => st' = next st2 /\ s' (LFut (next_fut st2)) = one /\ gfuts st' s' h /\ gcols s' h t m /\
     contains s' SOL (xacc (fg_q t) (length done)) /\ contains s' RHS b /\
     (forall i, i < m -> contains s' (kb i) (fg_q t i)) /\ (0 < m -> contains s' (kb m) (fg_w t (m - 1) m))) (seq 0 m))|].
  - intros done k rest st' s' E (-> & H1 & H2 & HC & H3 & H4 & H5 & H6).
    assert (Hk : k = length done /\ k < m).
    { assert (E2 := f_equal (fun l => nth (length done) l 0) E). cbv beta in E2. rewrite app_nth2, Nat.sub_diag in E2 by lia. cbn [nth] in E2.
      assert (L := f_equal (@length _) E). rewrite seq_length, app_length in L. cbn [length] in L. rewrite seq_nth in E2 by lia. lia. }
    destruct Hk as [Hk Hkj]. rewrite <- Hk in *. rewrite app_length, <- Hk. cbn [length]. replace (k + 1) with (S k) by lia.
    apply (@wpf_axpy p e lg Hlg cs (m + 1) pl Hw SOL [next_fut st2] (kb k) one (fg_q t k) (xacc (fg_q t) k));
      [rng|rng|rng|rng|exact H3|apply H5; exact Hkj|exact H1|]. intros s4 V4 K4.
    split; [reflexivity|]. split; [kf|]. split; [apply (gfuts_keeps K4 H2)|]. split; [apply (gcols_keeps K4 HC)|]. split; [exact V4|].
    split; [kv|]. destruct K4 as [K4 _]. split; [intros i Hi; apply K4; [rng|rng|apply H5; exact Hi]|intros Hi; apply K4; [rng|rng|apply H6; exact Hi]].
  - split; [reflexivity|]. split; [exact E3|]. split; [exact F3|]. split; [exact C3|]. destruct V3 as (X1 & X2 & X3). split; [exact X1|]. split; [exact X2|]. split.
    + intros i Hi. apply X3. destruct (Nat.ltb_spec m m); lia.
    + intros Hm. apply (proj1 K3). apply V2'; [exact Hm|reflexivity].
  - intros [] st' s' (-> & H1 & H2 & HC & H3 & H4 & H5 & H6). apply wp_ret. cbn [gm_pl gm_restart gm_neg1 gm_h]. rewrite seq_length in H3.
    split; [reflexivity|]. split; [reflexivity|]. split; [reflexivity|]. split; [exact H2|]. exists (with_x t).
    split; [destruct G; constructor; assumption|]. split; [split; reflexivity|]. split; [exact H3|]. split; [exact H4|]. split; [exact H5|]. split; [exact H6|].
    split; [intros i j Hj Hi; apply HC; assumption|apply H2].
Qed.
End Cycle.

Record fg_inv (k : nat) (xs : nat -> unknown -> spec_float) (t : nat -> fcycle unknown) (c : gmres spec_float) (st : ist) (s : store) : Prop := mk_fg_inv {
  fgi_working : working lg cs (m + 1) (gm_pl c);
  fgi_sol : pl_sol (gm_pl c) = sols_of cs;
  fgi_rhs : pl_rhs (gm_pl c) = rhss_of cs;
  fgi_restart : gm_restart c = m;
  fgi_futs : gfuts (gm_neg1 c) st s (gm_h c);
  fgi_x : vector_contains lg (gm_pl c) s SOL (xs k);
  fgi_b : vector_contains lg (gm_pl c) s RHS b;
  fgi_start : xs 0 = x0;
  fgi_floats : forall u, In u U -> is_float p e (xs k u);
  fgi_cycles : forall i, i < k -> (forall u, In u U -> is_float p e (xs i u)) /\ form (xs i) m (t i) /\ gsum p e one (xs i) (t i) /\ xs (S i) = fg_x (t i) m;
  fgi_left : match k with 0 => True | S k' => cycle_left (gm_pl c) (gm_h c) s (t k') end }.
Lemma fgmres_new_inv st pl0 s : set_up lg cs st pl0 -> vectors_contain lg s (sols_of cs) x0 -> vectors_contain lg s (rhss_of cs) b ->
  wp (gmres_new A lg pl0 m) (fun c st' s' => exists xs t, fg_inv 0 xs t c st' s') st s.
Proof.
  intros Hs Hx Hb. unfold gmres_new, scalar_const.
  apply wp_bind. apply wp_scalar_task. intros s1 E1 F1.
  apply wp_bind. apply (@wp_allocate _ lg cs _ pl0 (m + 1) _ s1); [apply (@set_up_next _ lg cs st); [cbn; lia|exact Hs]|].
  intros pl st1 Hw C3 C4 N1. cbn [next next_fut] in N1.
  apply wp_bind. apply wp_scalar_task. intros s2 E2 F2.
  assert (K : forall vs f, vectors_contain lg s vs f -> vectors_contain lg s2 vs f).
  { intros vs f H i v q Hv Hq. rewrite F2, F1 by discriminate. apply (H i v q Hv Hq). }
  apply wp_ret. exists (fun _ => x0), (fun _ => mk_fcycle b b neg1 (fun _ => b) (fun _ _ => b) (fun _ _ => neg1) (fun _ => neg1) (fun _ => b)).
  constructor; cbn [gm_pl gm_restart gm_neg1 gm_h]; auto.
  - split; [split; [cbn [next next_fut]; lia|rewrite F2 by (intros C; injection C; lia); exact E1]|]. split; [intros _ _; cbn [next next_fut]; lia|]. intros; exact E2.
  - apply sol_contains. rewrite C3. apply K. exact Hx.
  - apply rhs_contains. rewrite C4. apply K. exact Hb.
  - intros i Hi. lia.
Qed.
Lemma fgmres_step_inv k xs t c st s : fg_inv k xs t c st s -> wp (gmres_step A lg red c) (fun c' st' s' => exists xs' t', fg_inv (S k) xs' t' c' st' s') st s.
Proof.
  intros [Hw C3 C4 Cr HF HX HB H0 Hfl HC _].
  eapply wp_conseq; [apply (@fgmres_cycle (gm_pl c) Hw (xs k) Hfl (gm_neg1 c) c st s eq_refl Cr eq_refl HF HX HB)|].
  intros c' st' s' (E1 & E2 & E3 & F & T & G & GS & V1 & V2 & V3).
  set (xs' := fun i => if i <=? k then xs i else fg_x T m). set (t' := fun i => if i <? k then t i else T).
  assert (Ett : forall j, j <= k -> xs' j = xs j) by (intros j Hj; unfold xs'; rewrite (proj2 (Nat.leb_le j k) Hj); reflexivity).
  assert (Ess : xs' (S k) = fg_x T m) by (unfold xs'; rewrite (proj2 (Nat.leb_gt (S k) k) ltac:(lia)); reflexivity).
  assert (Et : t' k = T) by (unfold t'; rewrite Nat.ltb_irrefl; reflexivity).
  assert (FT : forall j u, j <= m -> In u U -> is_float p e (fg_x T j u)).
  { destruct (gform_float Hpe Fb (neg1_float Hpe) one_float Hfl G) as (_ & _ & _ & _ & _ & Fq & _). destruct GS as [S0 S1]. induction j as [|j IH]; intros u Hj Hu; [rewrite S0; apply Hfl; exact Hu|].
    rewrite S1. destruct Hpe as [Hp He]. apply fma_float; auto; [apply one_float|apply Fq; [lia|lia|exact Hu]|apply IH; [lia|exact Hu]]. }
  exists xs', t'. constructor; rewrite ?E1, ?E2, ?E3; auto.
  - rewrite Ess. exact V1.
  - intros u Hu. rewrite Ess. apply FT; [lia|exact Hu].
  - intros i Hi. rewrite (Ett i) by lia. destruct (Nat.eq_dec i k) as [-> |Ne].
    + rewrite Et, Ess. split; [exact Hfl|]. split; [exact G|]. split; [exact GS|reflexivity].
    + rewrite (Ett (S i)) by lia. unfold t'. rewrite (proj2 (Nat.ltb_lt i k)) by lia. apply HC. lia.
  - rewrite Et. exact V3.
Qed.
Lemma fgmres_run_inv st pl0 s k : set_up lg cs st pl0 -> vectors_contain lg s (sols_of cs) x0 -> vectors_contain lg s (rhss_of cs) b ->
  wp (gmres_run A lg red pl0 m k) (fun c st' s' => exists xs t, fg_inv k xs t c st' s') st s.
Proof.
  intros Hs Hx Hb. unfold gmres_run. apply wp_bind. eapply wp_conseq; [apply fgmres_new_inv; eassumption|]. intros c st' s' H.
  induction k as [|k IH]; cbn [gmres_steps]; [apply wp_ret; exact H|]. apply wp_bind. eapply wp_conseq; [exact IH|]. intros c' st1 s1 (t & d & H'). apply (fgmres_step_inv H').
Qed.
End Run.

(** ** C83.  A restarted GMRES run in an IEEE format is a sequence of cycles of the Arnoldi process with modified
    Gram-Schmidt, whose basis vectors are added to the solution, up to one rounding per entry and the usual errors of sums,
    as long as the solution contains no infinity or NaN. *)
Theorem C83_float_gmres_run : forall (p e : Z) lg red (cs : list (setup_call spec_float)) st pl0 s x0 b m k,
  format p e -> legion_ok lg -> legal_reduction (ieee p e) red -> set_up lg cs st pl0 -> float_entries p e cs -> unknowns lg cs <> [] -> 0 < m ->
  vectors_contain lg s (sols_of cs) x0 -> vectors_contain lg s (rhss_of cs) b ->
  (forall u, In u (unknowns lg cs) -> is_float p e (x0 u) /\ is_float p e (b u)) ->
  accepted (gmres_run (ieee p e) lg red pl0 m k) st /\
  forall c st' s', ends (gmres_run (ieee p e) lg red pl0 m k) st s c st' s' ->
    vectors_contain lg s' (rhss_of cs) b /\
    (finite_vectors lg s' (sols_of cs) ->
     exists xs t, float_gmres p e (unknowns lg cs) (coefficient_of fvalue cs) (coefficient_of (fun x => Rabs (fvalue x)) cs) (entry_count lg cs) b x0 m k xs t /\
       (forall i, i <= k -> finite_vector p e (unknowns lg cs) (xs i)) /\
       vectors_contain lg s' (sols_of cs) (xs k) /\
       forall k', k = S k' ->
         (forall i, i < m -> vector_contains lg (gm_pl c) s' (krylov_basis i) (fg_q (t k') i)) /\
         vector_contains lg (gm_pl c) s' (krylov_basis m) (fg_w (t k') (m - 1) m) /\
         (forall i j, j < m -> i <= S j -> s' (LFut (gm_h c i j)) = fg_h (t k') i j) /\
         (forall i j, j + 1 < i -> s' (LFut (gm_h c i j)) = a0 (ieee p e))).
Proof.
  intros p e lg red cs st pl0 s x0 b m k Hpe Hlg Hred Hs Hfe Hne Hm Hx Hb Hf.
  destruct (unknowns lg cs) as [|u0 us] eqn:Eus; [contradiction|]. rewrite <- Eus in *. assert (Hu0 : In u0 (unknowns lg cs)) by (rewrite Eus; left; reflexivity).
  assert (Hn : 0 < length (sols_of cs)) by (destruct u0 as [i q]; apply in_unknowns in Hu0; lia).
  assert (Hdom : forall m d r, In (m, d, r) (mats_of cs) -> d < length (sols_of cs)).
  { intros m' d r Hin. assert (W : wp (allocate_workspace lg pl0 5) (fun pl _ _ => working lg cs 5 pl) st s) by (apply (@wp_allocate _ lg cs st pl0 5 _ s Hs); auto).
    destruct W as (pl & lns & st1 & _ & _ & Hw). apply (mats_domain Hw m' d r Hin). }
  assert (W := @fgmres_run_inv p e Hpe lg Hlg red Hred cs Hdom Hfe Hn m x0 b (fun u Hu => proj1 (Hf u Hu)) (fun u Hu => proj2 (Hf u Hu)) st pl0 s k Hs Hx Hb).
  split; [eapply wp_accepted; exact W|]. intros c st' s' He. destruct (wp_ends W He) as [s1 [(xs & t & [Hw C3 C4 Cr HF HX HB H0 HFl HC HL]) E]].
  assert (VE : forall vi f, vector_contains lg (gm_pl c) s1 vi f -> vector_contains lg (gm_pl c) s' vi f) by (intros vi f; exact (@vector_contains_eq _ lg (gm_pl c) s1 s' _ _ E)).
  split; [rewrite <- C4; apply (proj1 (@rhs_contains _ lg (gm_pl c) s' _)); apply VE; exact HB|]. intros NS. exists xs, t.
  assert (NX : numbers (unknowns lg cs) (xs k)).
  { intros u Hu. refine (@finite_entries lg cs (m + 1) (gm_pl c) s' s1 SOL _ Hw _ E HX _ u Hu); [rng|].
    intros i v q Hc Hq. apply NS; [|exact Hq]. unfold component, get_vector, vector_row, SOL in Hc. cbn [obind] in Hc. rewrite C3 in Hc.
    destruct (nth_error (sols_of cs) i) eqn:Ei; [|discriminate]. injection Hc as ->. eapply nth_error_In; exact Ei. }
  destruct Hpe as [Hp He']. destruct (one_value Hp He') as [O1 O2].
  assert (CY : forall i, i < k -> numbers (unknowns lg cs) (xs (S i)) -> numbers (unknowns lg cs) (xs i) /\
    float_cycle p e (unknowns lg cs) (coefficient_of fvalue cs) (coefficient_of (fun x => Rabs (fvalue x)) cs) (entry_count lg cs) b m (xs i) (t i)).
  { intros i Hi N. destruct (HC i Hi) as (F1 & F2 & F3 & F4). rewrite F4 in N.
    refine (@gform_cycle p e (conj Hp He') unknown (unknowns lg cs) _ _ _ u0 Hu0 b (fun u Hu => proj2 (Hf u Hu)) _ _ (neg1_float (conj Hp He')) (neg1_value (conj Hp He')) (one_float (conj Hp He')) O2 m (xs i) (t i) Hm F1 F2 F3 N). }
  assert (NA : forall d, d <= k -> numbers (unknowns lg cs) (xs (k - d))).
  { induction d as [|d IH]; intros Hd; [rewrite Nat.sub_0_r; exact NX|]. apply CY; [lia|]. replace (S (k - S d)) with (k - d) by lia. apply IH. lia. }
  assert (NI : forall i, i <= k -> numbers (unknowns lg cs) (xs i)) by (intros i Hi; replace i with (k - (k - i)) by lia; apply NA; lia).
  split. { split; [intros u Hu; rewrite H0; reflexivity|]. intros i Hi. split; [apply CY; [exact Hi|apply NI; lia]|]. intros u Hu. destruct (HC i Hi) as (_ & _ & _ & F4). rewrite F4. reflexivity. }
  split. { intros i Hi u Hu. split; [|apply NI; assumption]. destruct (Nat.eq_dec i k) as [-> |Ne]; [apply HFl; exact Hu|]. apply (HC i); [lia|exact Hu]. }
  split; [rewrite <- C3; apply (proj1 (@sol_contains _ lg (gm_pl c) s' _)); apply VE; exact HX|].
  intros k' ->. destruct HL as (L1 & L2 & L3 & L4). split; [intros i Hi; apply VE; apply L1; exact Hi|]. split; [apply VE; apply L2; exact Hm|].
  split; [intros i j Hj Hi; rewrite E; apply L3; assumption|intros i j Hi; rewrite E; apply L4; exact Hi].
Qed.

(** *** What follows from one cycle *)
Section Consequences.
Local Open Scope R_scope.
Variables p e : Z.
Variable P : Type.
Variable U : list P.
Variables a mag : P -> P -> R.
Variable count : P -> nat.
Variable b : P -> spec_float.
Notation v f := (fun u => fvalue (f u)).
Notation cycle := (float_cycle p e U a mag count b).
(** The Arnoldi relation A q_j = sum_(k<=j) h_kj q_k + w_j, up to the error of the product and one rounding per component. *)
Theorem C83_arnoldi_relation : forall m x t j u, cycle m x t -> (j < m)%nat -> (S j < m)%nat \/ finite_vector p e U (fg_w t j (S j)) -> In u U ->
  Rabs (app_op U a (v (fg_q t j)) u - (Rsum (fun k => fvalue (fg_h t k j) * fvalue (fg_q t k u)) (seq 0 (S j)) + fvalue (fg_w t j (S j) u))) <= arnoldi_error p e U mag count t j u.
Proof.
  intros m x t j u HC Hj Hf Hu. destruct (fc_column HC Hj Hf) as [C1 _ C3 _]. unfold arnoldi_error.
  assert (S1 : forall n, (n <= S j)%nat -> Rabs (fvalue (fg_w t j 0 u) - (Rsum (fun k => fvalue (fg_h t k j) * fvalue (fg_q t k u)) (seq 0 n) + fvalue (fg_w t j n u))) <=
     Rsum (fun k => once p e (fvalue (fg_w t j k u) - fvalue (fg_h t k j) * fvalue (fg_q t k u))) (seq 0 n)).
  { induction n as [|n IH]; intros Hn.
    - cbn [seq]. rewrite !Rsum_nil. replace (fvalue (fg_w t j 0 u) - (0 + fvalue (fg_w t j 0 u))) with 0 by ring. rewrite Rabs_R0. lra.
    - rewrite seq_S, !Rsum_app, !Rsum_cons, !Rsum_nil. cbn [plus]. specialize (IH ltac:(lia)). destruct (C3 n u ltac:(lia) Hu) as (_ & _ & R3). unfold once at 2.
      match goal with |- Rabs ?g <= _ => match type of IH with Rabs ?h <= _ => match type of R3 with Rabs ?r <= _ => replace g with (h - r) by ring end end end.
      eapply Rle_trans; [apply Rabs_triang|]. rewrite Rabs_Ropp. lra. }
  destruct (C1 u Hu) as (_ & _ & R1). specialize (S1 (S j) (le_n _)).
  match goal with |- Rabs ?g <= _ => match type of S1 with Rabs ?h <= _ => match type of R1 with Rabs ?r <= _ => replace g with (h - r) by ring end end end.
  eapply Rle_trans; [apply Rabs_triang|]. rewrite Rabs_Ropp. lra.
Qed.
(** The cycle adds the sum of the basis vectors to the solution, one rounding per addition: this is not the minimal-residual
    solution in the Krylov space. *)
Theorem C83_solution_is_sum : forall m x t n u, cycle m x t -> (n <= m)%nat -> In u U ->
  Rabs (fvalue (fg_x t n u) - (fvalue (x u) + Rsum (fun j => fvalue (fg_q t j u)) (seq 0 n))) <= Rsum (fun j => once p e (fvalue (fg_x t j u) + fvalue (fg_q t j u))) (seq 0 n).
Proof.
  intros m x t n u HC Hn Hu. induction n as [|n IH].
  - cbn [seq]. rewrite !Rsum_nil, (fc_start HC u Hu). replace (fvalue (x u) - (fvalue (x u) + 0)) with 0 by ring. rewrite Rabs_R0. lra.
  - specialize (IH ltac:(lia)). rewrite seq_S, !Rsum_app, !Rsum_cons, !Rsum_nil. cbn [plus]. destruct (fc_add HC (j := n) u ltac:(lia) Hu) as (_ & _ & R3). unfold once at 2.
    match goal with |- Rabs ?g <= _ => match type of IH with Rabs ?h <= _ => match type of R3 with Rabs ?r <= _ => replace g with (h + r) by ring end end end.
    eapply Rle_trans; [apply Rabs_triang|]. lra.
Qed.
(** A normalised vector times the computed norm is the vector, up to the rounding of the reciprocal and of the product. *)
Theorem C83_normalised_scale : forall f s q, normalised p e U f s q -> is_number s ->
  exists y c, rounded p e (sqrt (fvalue s)) y /\ rounded p e (1 / fvalue y) c /\
    forall u, In u U -> Rabs (fvalue (f u) - fvalue y * fvalue (q u)) <= scaling_error p e (fvalue (f u)) (fvalue y) (fvalue c).
Proof.
  intros f s q [(HS & Hs & y & c & Hy & Ny & Hc & Hq)|[HN _]] Ns; [|contradiction]. exists y, c. split; [exact Hy|]. split; [exact Hc|]. intros u Hu.
  destruct Hc as (_ & _ & Ec). destruct (Hq u Hu) as (_ & _ & Eq). unfold scaling_error. unfold once at 1 2.
  replace (fvalue (f u) - fvalue y * fvalue (q u)) with (- (fvalue (f u) * (fvalue y * (fvalue c - 1 / fvalue y))) - fvalue y * (fvalue (q u) - fvalue c * fvalue (f u))) by (field; exact Ny).
  eapply Rle_trans; [apply Rabs_triang|]. rewrite !Rabs_Ropp, (Rabs_mult (fvalue (f u))), (Rabs_mult (fvalue y)), (Rabs_mult (fvalue y)). apply Rplus_le_compat.
  - apply Rmult_le_compat_l; [apply Rabs_pos|]. apply Rmult_le_compat_l; [apply Rabs_pos|]. exact Ec.
  - apply Rmult_le_compat_l; [apply Rabs_pos|]. exact Eq.
Qed.
(** The length of a normalised vector is 1 up to rounding: if the relative error of the sum of squares is at most [d] and
    nothing underflows, its square differs from 1 by at most [d + 16 u]. *)
Theorem C83_unit_length : forall f s q d, 
  unit_roundoff p <= 1 / 100 -> 0 <= d <= 1 / 8 ->
  normalised p e U f s q -> is_number s ->
  (* the error bound of the sum of the squares is small *)
  sum_error p e (length U) (Rsum (fun u => fvalue (f u) * fvalue (f u)) U) <= d * fvalue s ->
  (* the norm is far from the underflow threshold and from its reciprocal, and there are not too many entries *)
  2 * tiny p e <= unit_roundoff p * sqrt (fvalue s) -> 2 * tiny p e * sqrt (fvalue s) <= unit_roundoff p ->
  INR (length U) * (tiny p e * tiny p e) <= unit_roundoff p * unit_roundoff p ->
  Rabs (Rsum (fun u => fvalue (q u) * fvalue (q u)) U - 1) <= d + 16 * unit_roundoff p.
Proof.
  intros f s q d Hu Hd HN Ns He Ht1 Ht2 Hn. destruct HN as [(HS & Hs & y & c & Hy & Ny & Hc & Hq)|[HN _]]; [|contradiction].
  destruct HS as (_ & _ & ES). rewrite (Rsum_ext (fun i => Rabs (fvalue (f i) * fvalue (f i))) (fun i => fvalue (f i) * fvalue (f i)) U) in ES by (intros; apply Rabs_pos_eq; apply Rle_0_sqr).
  set (F := Rsum (fun u => fvalue (f u) * fvalue (f u)) U) in *. set (z := fvalue s) in *. set (w := unit_roundoff p) in *. set (t := tiny p e) in *.
  assert (Pw : 0 < w) by (unfold w, unit_roundoff; apply powerRZ_lt; lra). assert (Pt : 0 < t) by (unfold t, tiny; apply powerRZ_lt; lra).
  destruct Hy as (_ & _ & Ey). destruct Hc as (_ & _ & Ec). fold w t in Ey, Ec. set (yy := fvalue y) in *. set (cc := fvalue c) in *. set (r := sqrt z) in *.
  assert (Pr : 0 < r) by (apply sqrt_lt_R0; exact Hs). assert (Er : r * r = z) by (apply sqrt_sqrt; lra).
  (* the norm *)
  assert (Y : Rabs (yy - r) <= 3 / 2 * w * r) by (rewrite (Rabs_pos_eq r) in Ey by lra; lra).
  assert (Y' : (1 - 3 / 2 * w) * r <= yy <= (1 + 3 / 2 * w) * r) by (clear - Y; unfold Rabs in Y; destruct (Rcase_abs (yy - r)); lra).
  assert (Py : 0 < yy) by (apply Rlt_le_trans with ((1 - 3 / 2 * w) * r); [apply Rmult_lt_0_compat; lra|apply Y']).
  (* its reciprocal: cc * yy is close to 1 *)
  assert (C : Rabs (cc * yy - 1) <= 2 * w).
  { replace (cc * yy - 1) with ((cc - 1 / yy) * yy) by (field; lra). rewrite Rabs_mult, (Rabs_pos_eq yy) by lra.
    assert (E1 : Rabs (1 / yy) = 1 / yy) by (apply Rabs_pos_eq; unfold Rdiv; rewrite Rmult_1_l; left; apply Rinv_0_lt_compat; exact Py). rewrite E1 in Ec.
    apply Rle_trans with ((w * (1 / yy) + t) * yy); [apply Rmult_le_compat_r; lra|]. replace ((w * (1 / yy) + t) * yy) with (w + t * yy) by (field; lra).
    assert (t * yy <= w); [|lra]. apply Rle_trans with (t * (2 * r)); [apply Rmult_le_compat_l; [lra|]; clear - Y' Hu Pr; nra|lra]. }
  (* G = cc^2 F *)
  assert (FB : (1 - d) * z <= F <= (1 + d) * z) by (assert (B : Rabs (z - F) <= d * z) by lra; clear - B; unfold Rabs in B; destruct (Rcase_abs (z - F)); lra).
  set (k := cc * r). assert (K : 1 - 18 / 5 * w <= k <= 1 + 18 / 5 * w).
  { assert (C' : 1 - 2 * w <= cc * yy <= 1 + 2 * w) by (clear - C; unfold Rabs in C; destruct (Rcase_abs (cc * yy - 1)); lra).
    assert (Pc : 0 < cc) by (destruct (Rlt_or_le 0 cc) as [L|L]; [exact L|]; exfalso; clear - L Py C' Hu; nra).
    assert (K1 : (1 - 3 / 2 * w) * k <= cc * yy) by (unfold k; replace ((1 - 3 / 2 * w) * (cc * r)) with (cc * ((1 - 3 / 2 * w) * r)) by ring; apply Rmult_le_compat_l; lra).
    assert (K2 : cc * yy <= (1 + 3 / 2 * w) * k) by (unfold k; replace ((1 + 3 / 2 * w) * (cc * r)) with (cc * ((1 + 3 / 2 * w) * r)) by ring; apply Rmult_le_compat_l; lra).
    clear - K1 K2 C' Hu Pw. split; [nra|nra]. }
  set (G := cc * cc * F). assert (GB : Rabs (G - 1) <= d + 17 / 2 * w).
  { assert (G1 : (1 - d) * (k * k) <= G <= (1 + d) * (k * k)).
    { unfold G, k. replace ((1 - d) * (cc * r * (cc * r))) with (cc * cc * ((1 - d) * z)) by (rewrite <- Er; ring). replace ((1 + d) * (cc * r * (cc * r))) with (cc * cc * ((1 + d) * z)) by (rewrite <- Er; ring).
      split; apply Rmult_le_compat_l; try apply Rle_0_sqr; lra. }
    assert (K2 : 1 - 36 / 5 * w <= k * k <= 1 + 37 / 5 * w) by (clear - K Hu Pw; split; nra).
    clear - G1 K2 Hd Hu Pw. apply Rabs_le. split; nra. }
  (* the rounding of the products *)
  set (H := fun u => fvalue (q u) - cc * fvalue (f u)).
  assert (HB : forall u, In u U -> Rabs (fvalue (q u) * fvalue (q u) - cc * cc * (fvalue (f u) * fvalue (f u))) <= (9 / 2 * w) * (cc * cc * (fvalue (f u) * fvalue (f u))) + (1 / w + 2) * (t * t)).
  { intros u Hin. destruct (Hq u Hin) as (_ & _ & Eq). fold w t cc in Eq. set (g := cc * fvalue (f u)) in *. set (h := fvalue (q u) - g) in *.
    replace (cc * cc * (fvalue (f u) * fvalue (f u))) with (g * g) by (unfold g; ring). replace (fvalue (q u)) with (g + h) by (unfold h; ring).
    replace ((g + h) * (g + h) - g * g) with (2 * (g * h) + h * h) by ring. rewrite <- (Rabs_pos_eq (g * g)) by apply Rle_0_sqr.
    eapply Rle_trans; [apply Rabs_triang|]. rewrite !Rabs_mult, (Rabs_pos_eq 2) by lra. set (ga := Rabs g) in *. set (ha := Rabs h) in *. assert (Pg : 0 <= ga) by apply Rabs_pos. assert (Ph : 0 <= ha) by apply Rabs_pos.
    (* 2 ga t <= w ga^2 + t^2 / w *)
    assert (Q1 : 2 * (ga * t) <= w * (ga * ga) + 1 / w * (t * t)).
    { assert (0 <= (w * ga - t) * (w * ga - t) / w) by (unfold Rdiv; apply Rmult_le_pos; [apply Rle_0_sqr|left; apply Rinv_0_lt_compat; exact Pw]).
      replace ((w * ga - t) * (w * ga - t) / w) with (w * (ga * ga) - 2 * (ga * t) + 1 / w * (t * t)) in H0 by (field; lra). lra. }
    assert (Q2 : ga * ha <= w * (ga * ga) + ga * t) by (clear - Pg Eq; nra).
    assert (Q3 : ha * ha <= 2 * (w * w) * (ga * ga) + 2 * (t * t)) by (clear - Ph Eq Pg Pw Pt; assert (ha * ha <= (w * ga + t) * (w * ga + t)) by (apply Rmult_le_compat; assumption); assert (0 <= (w * ga - t) * (w * ga - t)) by apply Rle_0_sqr; lra).
    assert (Q4 : w * w * (ga * ga) <= 1 / 100 * (w * (ga * ga))) by (rewrite Rmult_assoc; apply Rmult_le_compat_r; [apply Rmult_le_pos; [lra|apply Rle_0_sqr]|exact Hu]).
    assert (Q5 : 0 <= w * (ga * ga)) by (apply Rmult_le_pos; [lra|apply Rle_0_sqr]). lra. }
  assert (SB : Rabs (Rsum (fun u => fvalue (q u) * fvalue (q u)) U - G) <= 9 / 2 * w * G + (1 / w + 2) * (INR (length U) * (t * t))).
  { unfold G, F. clear - HB Pw. revert HB. generalize (1 / w + 2). intros k. induction U as [|u l IH]; intros HB; [rewrite !Rsum_nil; cbn [length INR]; rewrite !Rmult_0_r, Rmult_0_l, Rminus_0_r, Rabs_R0; lra|].
    rewrite !Rsum_cons. change (length (u :: l)) with (S (length l)). rewrite S_INR. specialize (IH (fun v Hv => HB v (or_intror Hv))). specialize (HB u (or_introl eq_refl)).
    match goal with |- Rabs ?g <= _ => match type of IH with Rabs ?h <= _ => match type of HB with Rabs ?r <= _ => replace g with (r + h) by ring end end end.
    eapply Rle_trans; [apply Rabs_triang|]. lra. }
  assert (TB : (1 / w + 2) * (INR (length U) * (t * t)) <= w + 2 * (w * w)).
  { apply Rle_trans with ((1 / w + 2) * (w * w)); [apply Rmult_le_compat_l; [|exact Hn]|right; field; lra]. assert (0 < 1 / w) by (unfold Rdiv; rewrite Rmult_1_l; apply Rinv_0_lt_compat; exact Pw). lra. }
  assert (GB' : G <= 1 + d + 17 / 2 * w) by (clear - GB; unfold Rabs in GB; destruct (Rcase_abs (G - 1)); lra).
  assert (WB : 9 / 2 * w * G <= 9 / 2 * w * (1 + d + 17 / 2 * w)) by (apply Rmult_le_compat_l; lra).
  replace (Rsum (fun u => fvalue (q u) * fvalue (q u)) U - 1) with ((Rsum (fun u => fvalue (q u) * fvalue (q u)) U - G) + (G - 1)) by ring.
  eapply Rle_trans; [apply Rabs_triang|]. clear - SB GB WB TB Hd Hu Pw. nra.
Qed.
End Consequences.

(** *** A concrete run in double: diag(1, 3), b = (1, 1), x0 = 0, one cycle with two basis vectors.  The second basis
    vector is orthogonal to the first only up to rounding, and what remains of the third is rounding error. *)
Example C83_example : let A := ieee 53 1024 in let red := left_sum A in
  format 53 1024 /\ legion_ok lg2 /\ legal_reduction A red /\ set_up lg2 diag64_calls ex_st diag64_planner /\ float_entries 53 1024 diag64_calls /\ unknowns lg2 diag64_calls <> [] /\
  vectors_contain lg2 ones64 (sols_of diag64_calls) (fun _ => f64_zero) /\ vectors_contain lg2 ones64 (rhss_of diag64_calls) (fun _ => f64_of_Z 1) /\
  (forall u, In u (unknowns lg2 diag64_calls) -> is_float 53 1024 f64_zero /\ is_float 53 1024 (f64_of_Z 1)) /\
  forall c st' s', ends (gmres_run A lg2 red diag64_planner 2 1) ex_st ones64 c st' s' ->
    finite_vectors lg2 s' (sols_of diag64_calls) /\
    s' (at_point (v2 3 10) [0]%Z) = S754_finite false 4503599627370496 (-104) /\ s' (at_point (v2 3 10) [1]%Z) = S754_finite false 6369051672525774 (-52) /\
    (* h_00, h_10 and h_11: each a few units in the last place below or above the exact 2, 1 and 2 *)
    s' (LFut (gm_h c 0 0)) = S754_finite false 9007199254740990 (-52) /\ s' (LFut (gm_h c 1 0)) = S754_finite false 9007199254740991 (-53) /\ s' (LFut (gm_h c 1 1)) = S754_finite false 4503599627370498 (-51).
Proof.
  intros A red. assert (Hs : set_up lg2 diag64_calls ex_st diag64_planner) by (split; [exact diag64_well_formed|reflexivity]).
  assert (Hr : legal_reduction A red) by (apply fold_left_legal).
  destruct C68_example as (_ & _ & _ & _ & Hf & _ & Hx & Hb & HF & _).
  split; [exact double_format_ok|]. split; [exact lg2_ok|]. split; [exact Hr|]. split; [exact Hs|]. split; [exact Hf|]. split; [discriminate|]. split; [exact Hx|]. split; [exact Hb|]. split; [exact HF|].
  intros c st' s' He.
  assert (Hdom : forall m d r, In (m, d, r) (mats_of diag64_calls) -> d < length (sols_of diag64_calls)) by (intros m d r H; cbn in H; destruct H as [E|[]]; injection E as <- <- <-; cbn; lia).
  assert (Hn : 0 < length (sols_of diag64_calls)) by (cbn; lia).
  assert (W := @fgmres_run_inv 53 1024 double_format_ok lg2 lg2_ok red Hr diag64_calls Hdom Hf Hn 2 _ _ (fun u Hu => proj1 (HF u Hu)) (fun u Hu => proj2 (HF u Hu)) ex_st diag64_planner ones64 1 Hs Hx Hb).
  destruct W as (c0 & lns & st0 & E1 & G & t & d & I). destruct He as (lns1 & E2 & L). assert (E3 := eq_trans (eq_sym E1) E2). injection E3 as <- <- <-. clear E2.
  assert (D : forall l, s' l = effect lns ones64 l) by (apply launches_end_effect; assumption).
  assert (S : match gmres_run A lg2 red diag64_planner 2 1 ex_st with Ok (c, lns, _) =>
      map (fun q => effect lns ones64 (at_point (v2 3 10) q)) [[0];[1]]%Z = [S754_finite false 4503599627370496 (-104); S754_finite false 6369051672525774 (-52)] /\
      map (fun ij => effect lns ones64 (LFut (gm_h c (fst ij) (snd ij)))) [(0,0);(1,0);(1,1)] = [S754_finite false 9007199254740990 (-52); S754_finite false 9007199254740991 (-53); S754_finite false 4503599627370498 (-51)]
    | _ => False end) by (vm_compute; split; reflexivity).
  unfold A in S. change (ieee 53 1024) with A in E1. unfold A in E1. rewrite E1 in S. destruct S as [S1 S2]. cbn [map fst snd] in S1, S2. injection S1 as X0 X1. injection S2 as P0 P1 P2.
  split; [|rewrite !D; auto].
  intros v q Hv Hq. destruct Hv as [<-|[]]. rewrite D. cbn in Hq. destruct Hq as [<-|[<-|[]]]; [rewrite X0|rewrite X1]; exact Logic.I.
Qed.
(** the first basis vector of that run satisfies the hypotheses of [C83_unit_length] *)
Example C83_unit_length_example : let us := [0; 1] in let f := fun _ : nat => f64_of_Z 1 in let s := f64_of_Z 2 in
  let q := fun _ : nat => S754_finite false 6369051672525772 (-53) in let u := unit_roundoff 53 in
  (u <= 1 / 100 /\ 0 <= 3 * u <= 1 / 8 /\ normalised 53 1024 us f s q /\ is_number s /\
   sum_error 53 1024 (length us) (Rsum (fun w => fvalue (f w) * fvalue (f w)) us) <= 3 * u * fvalue s /\
   2 * tiny 53 1024 <= u * sqrt (fvalue s) /\ 2 * tiny 53 1024 * sqrt (fvalue s) <= u /\ INR (length us) * (tiny 53 1024 * tiny 53 1024) <= u * u)%R.
Proof.
  intros us f s q u.
  assert (Eu : u = (/ 9007199254740992)%R) by (unfold u, unit_roundoff; rewrite powerRZ_bpow; cbn; reflexivity).
  assert (Es : fvalue s = 2%R) by (vm_compute; lra). assert (Ef : forall w, fvalue (f w) = 1%R) by (intros w; vm_compute; lra).
  assert (Pt : (0 < tiny 53 1024)%R) by (unfold tiny; apply powerRZ_lt; lra).
  assert (Tt : (tiny 53 1024 <= u * u)%R).
  { rewrite Eu. unfold tiny. rewrite powerRZ_bpow. apply Rle_trans with (Raux.bpow Zaux.radix2 (-106)); [apply Raux.bpow_le; lia|]. cbn. lra. }
  assert (Fs : is_float 53 1024 s) by reflexivity. assert (Ff : forall w, is_float 53 1024 (f w)) by (intros; reflexivity).
  assert (R2 : (1 <= sqrt 2 <= 2)%R) by (split; [rewrite <- sqrt_1 at 1; apply sqrt_le_1; lra|rewrite <- (sqrt_square 2) at 2 by lra; apply sqrt_le_1; lra]).
  assert (SF : Rsum (fun w => fvalue (f w) * fvalue (f w))%R us = 2%R) by (unfold us; rewrite !Rsum_cons, Rsum_nil, !Ef; lra).
  split; [rewrite Eu; lra|]. split; [rewrite Eu; lra|]. split; [|split; [exact Logic.I|]].
  - refine (proj2 (@normalised_of 53 1024 double_format_ok nat us 0 (or_introl eq_refl) (f64_of_Z 1) (eq_refl : is_float 53 1024 (f64_of_Z 1)) (Ef 0) f s q (fun w _ => Ff w) _ (fun w => _) (fun w _ => Logic.I))).
    + split; [exact Fs|]. split; [|contradiction]. intros _. rewrite Es.
      assert (ET : Rsum (fun z : R => z) (dot_terms us f f) = 2%R) by (unfold us, dot_terms; cbn [map]; rewrite !Rsum_cons, Rsum_nil, !Ef; lra).
      rewrite ET, Rminus_diag_eq, Rabs_R0 by reflexivity. apply sum_error_nonneg; [apply double_format_ok|apply mag_nonneg].
    + vm_compute. reflexivity.
  - rewrite SF, Es. cbn [length us]. unfold sum_error, gamma. cbn [pow INR]. fold u. split; [|split; [|split]].
    + assert (H : (0 < u < 1/100)%R) by (rewrite Eu; lra). clear - H Pt Tt. set (t := tiny 53 1024) in *. assert (H1 : (u * u <= u / 100)%R) by nra. assert (H2 : ((1 + u) * ((1 + u) * 1) <= 2)%R) by lra.
      assert (H3 : ((1 + 1) * ((1 + u) * ((1 + u) * 1)) * t <= (1 + 1) * 2 * t)%R) by (apply Rmult_le_compat_r; lra). lra.
    + assert (0 < u < 1/100)%R by (rewrite Eu; lra). clear - H Pt Tt R2. nra.
    + assert (0 < u < 1/100)%R by (rewrite Eu; lra). clear - H Pt Tt R2. nra.
    + assert (H : (0 < u < 1/100)%R) by (rewrite Eu; lra). clear - H Pt Tt. set (t := tiny 53 1024) in *. assert (H1 : (u * u <= 1 / 2)%R) by nra.
      assert (H2 : (t * t <= t * (1 / 2))%R) by (apply Rmult_le_compat_l; lra). lra.
Qed.
