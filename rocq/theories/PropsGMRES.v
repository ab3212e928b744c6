(** PropsGMRES: properties C41, C42, C58 (GMRES). *)
From Coq Require Import Reals Lra Classical_Prop.
From Verif Require Import Base Index Outcome Sched Async Arith Launch Vector PartitionSpec VectorFacts LaunchFacts Matrix MatrixSpec MatrixFacts
  MatvecFacts Builder BuilderFacts Exec ExactSum LinAlg CGSpec BiCGSpec GMRESSpec Planner PlannerFacts PlannerSetup Solvers PropsVector PropsMatrix PropsPlanner
  PropsSolver SolverFacts UndefFacts PropsCG PropsBiCG.
Set Implicit Arguments.

Section GMRES.
Variable lg : legion.
Hypothesis Hlg : legion_ok lg.
Variable red : nat -> list (option R) -> option R.
Hypothesis Hred : legal_reduction exact red.
Variable cs : list (setup_call (option R)).
Hypothesis Hre : real_entries cs.
Hypothesis Hn : 0 < length (sols_of cs).
Variable m : nat. (* restart *)
Variable b : unknown -> R.
Notation U := (unknowns lg cs).
Notation a := (operator cs).
Notation store := (store loc (option R)).
Notation kb := krylov_basis.

Section Cycle.
Variable pl : planner (option R).
Hypothesis Hw : working lg cs (m + 1) pl.
Variable x : unknown -> R.
Notation r := (residual U a b x).
Notation Q := (q U a r).
Notation W := (w U a r).
Variable d : nat.
Hypothesis Hd : arnoldi_defined U a r d.
Variable neg1 : nat.

Definition vecs (s : store) (j : nat) : Prop :=
  vector_is lg pl s SOL x /\ vector_is lg pl s RHS b /\ forall i, i <= j -> vector_is lg pl s (kb i) (Q i).
(** the inner products of columns before [j], and the first [k] of column [j] *)
Definition futs (st : ist) (s : store) (h : nat -> nat -> scalar) (j k : nat) : Prop :=
  (neg1 < next_fut st /\ s (LFut neg1) = Some (-1)%R) /\
  (forall i jj, h i jj < next_fut st) /\
  (forall i jj, jj < j -> i <= jj -> s (LFut (h i jj)) = Some (ip U (Q i) (app_op U a (Q jj)))) /\
  (forall jj, jj < j -> s (LFut (h (jj + 1) jj)) = Some (norm U (W jj))) /\
  (forall i, i < k -> s (LFut (h i j)) = Some (ip U (Q i) (app_op U a (Q j)))) /\
  (forall i jj, jj + 1 < i -> s (LFut (h i jj)) = Some 0%R).

Lemma vecs_keeps vi s s' j : keeps lg (m + 1) pl vi s s' -> j + 2 < vi -> j <= m -> vecs s j -> vecs s' j.
Proof.
  intros [K _] Hv Hj (V1 & V2 & V3). split; [apply K; [rng|rng|exact V1]|]. split; [apply K; [rng|rng|exact V2]|].
  intros i Hi. apply K; [rng|rng|apply V3; exact Hi].
Qed.
Lemma vecs_keeps_all st s s' j : keeps_all lg pl st s s' -> vecs s j -> vecs s' j.
Proof. intros [K _] (V1 & V2 & V3). split; [apply K; exact V1|]. split; [apply K; exact V2|]. intros i Hi. apply K. apply V3. exact Hi. Qed.
Lemma futs_keeps vi st s s' h j k : keeps lg (m + 1) pl vi s s' -> futs st s h j k -> futs st s' h j k.
Proof.
  intros [_ K] ([F1 F1'] & F2 & F3 & F4 & F5 & F6). repeat split; intros; rewrite ?K; auto.
Qed.
Lemma futs_keeps_all st st' s s' h j k : keeps_all lg pl st s s' -> next_fut st <= next_fut st' -> futs st s h j k -> futs st' s' h j k.
Proof.
  intros [_ K] L ([F1 F1'] & F2 & F3 & F4 & F5 & F6). repeat split; intros; rewrite ?K; auto; try lia. specialize (F2 i jj). lia.
Qed.
Lemma futs_set st s h j k f : futs st s h j k -> f < next_fut st -> s (LFut f) = Some (ip U (Q k) (app_op U a (Q j))) -> k <= j -> futs st s (set_h h k j f) j (S k).
Proof.
  intros (F1 & F2 & F3 & F4 & F5 & F6) L V Hk. unfold set_h. split; [exact F1|]. split; [|split; [|split; [|split]]].
  - intros i jj. destruct ((i =? k) && (jj =? j)); [exact L|apply F2].
  - intros i jj H1 H2. destruct (Nat.eqb_spec i k), (Nat.eqb_spec jj j); cbn [andb]; try lia; apply F3; assumption.
  - intros jj H1. destruct (Nat.eqb_spec (jj + 1) k), (Nat.eqb_spec jj j); cbn [andb]; try lia; apply F4; assumption.
  - intros i H1. destruct (Nat.eqb_spec i k), (Nat.eqb_spec j j); cbn [andb]; try lia; [subst i; exact V|apply F5; lia].
  - intros i jj H1. destruct (Nat.eqb_spec i k), (Nat.eqb_spec jj j); cbn [andb]; try lia; apply F6; lia.
Qed.
Lemma futs_close st s h j f : futs st s h j (S j) -> f < next_fut st -> s (LFut f) = Some (norm U (W j)) -> futs st s (set_h h (j + 1) j f) (S j) 0.
Proof.
  intros (F1 & F2 & F3 & F4 & F5 & F6) L V. unfold set_h. split; [exact F1|]. split; [|split; [|split; [|split]]].
  - intros i jj. destruct ((i =? j + 1) && (jj =? j)); [exact L|apply F2].
  - intros i jj H1 H2. destruct (Nat.eqb_spec i (j + 1)), (Nat.eqb_spec jj j); cbn [andb]; try lia; [subst jj; apply F5; lia|apply F3; lia].
  - intros jj H1. destruct (Nat.eqb_spec (jj + 1) (j + 1)), (Nat.eqb_spec jj j); cbn [andb]; try lia; [subst jj; exact V|apply F4; lia].
  - intros i H1. lia.
  - intros i jj H1. destruct (Nat.eqb_spec i (j + 1)), (Nat.eqb_spec jj j); cbn [andb]; try lia; apply F6; lia.
Qed.

Lemma rsqrt_value y : y <> 0%R -> (0 <= y)%R -> Rdiv_opt (Some 1%R) (Rsqrt_opt (Some y)) = Some (/ sqrt y)%R.
Proof.
  intros Hy Hp. cbn. destruct (Rlt_dec y 0); [lra|]. cbn. destruct (Req_EM_T (sqrt y) 0) as [E|_]; [|f_equal; unfold Rdiv; ring].
  exfalso. apply Hy. apply sqrt_eq_0; assumption.
Qed.

Lemma gmres_start_cycle st s h : futs st s h 0 0 -> vector_is lg pl s SOL x -> vector_is lg pl s RHS b ->
  wp (gmres_start exact lg red pl neg1) (fun _ st' s' => vecs s' 0 /\ futs st' s' h 0 0) st s.
Proof.
  intros F HX HB. unfold gmres_start, scalar_rsqrt.
  apply wp_bind. apply (@wpx_matvec lg Hlg cs Hre (m + 1) pl Hw (kb 0) SOL x); [rng|rng|rng|exact HX|]. intros s1 V1 K1. assert (F1 := futs_keeps K1 F).
  apply wp_bind. apply (@wpx_xpay lg Hlg cs (m + 1) pl Hw (kb 0) [neg1] RHS (-1)%R b (app_op U a x)); [rng|rng|rng|rng|exact V1|kv|apply alpha_one; apply F1|].
  intros s2 V2 K2. assert (F2 := futs_keeps K2 F1).
  assert (V2' : vector_is lg pl s2 (kb 0) r).
  { revert V2. apply (@vector_is_ext lg cs (m + 1) pl Hw); [rng|]. intros u _. unfold residual. ring. }
  apply wp_bind. apply (@wpx_dot lg Hlg red Hred cs (m + 1) pl Hw (kb 0) (kb 0) r r); [exact Hn|rng|rng|exact V2'|exact V2'|].
  intros fr st3 s3 A1 A2 _ V3 K3. assert (F3 := futs_keeps_all st3 K3 ltac:(lia) F2).
  apply wp_bind. apply (@wpx_scalar lg pl). intros s4 V4 K4. cbn [map on1] in V4. rewrite V3 in V4. cbn [exact adiv a1 asqrt] in V4.
  rewrite rsqrt_value in V4 by (try apply ip_pos; apply Hd). assert (F4 := futs_keeps_all (next st3) K4 ltac:(cbn; lia) F3).
  apply (@wpx_scal lg Hlg cs (m + 1) pl Hw (kb 0) (next_fut st3) (/ sqrt (ip U r r))%R r); [rng|kv|exact V4|]. intros s5 V5 K5.
  split; [|apply (futs_keeps K5 F4)]. split; [kv|]. split; [kv|]. intros i Hi. replace i with 0 by lia.
  revert V5. apply (@vector_is_ext lg cs (m + 1) pl Hw); [rng|]. intros u _. unfold q, arnoldi, normalise, norm, Rdiv. ring.
Qed.

Lemma gmres_orth_cycle j st s h : j < m -> j < d -> vecs s j -> futs st s h j 0 -> vector_is lg pl s (kb (j + 1)) (app_op U a (Q j)) ->
  wp (gmres_orthogonalise exact lg red pl j h) (fun h' st' s' => vecs s' j /\ futs st' s' h' j (S j) /\ vector_is lg pl s' (kb (j + 1)) (W j)) st s.
Proof.
  intros Hj Hjd HV HF HA. assert (O := q_orthonormal Hd). unfold gmres_orthogonalise.
  eapply wp_conseq; [apply (@wp_mfold _ nat _ _ (fun done h' st' s' => vecs s' j /\ futs st' s' h' j (length done) /\
    vector_is lg pl s' (kb (j + 1)) (project_out U Q (length done) (app_op U a (Q j)))) (seq 0 (j + 1)))|].
  - intros done k rest h' st' s' E (V & F & VA).
    assert (Hk : k = length done /\ k <= j).
    { assert (E2 := f_equal (fun l => nth (length done) l 0) E). cbv beta in E2. rewrite app_nth2, Nat.sub_diag in E2 by lia. cbn [nth] in E2.
      assert (L := f_equal (@length _) E). rewrite seq_length, app_length in L. cbn [length] in L. rewrite seq_nth in E2 by lia. lia. }
    destruct Hk as [Hk Hkj]. rewrite <- Hk in *. rewrite app_length, <- Hk. cbn [length]. replace (k + 1) with (S k) by lia.
    assert (Ok : orthonormal U Q (S k)) by (intros i1 i2 I1 I2; apply O; lia).
    apply wp_bind. apply (@wpx_dot lg Hlg red Hred cs (m + 1) pl Hw (kb k) (kb (j + 1)) (Q k) (project_out U Q k (app_op U a (Q j)))); [exact Hn|rng|rng|apply V; lia|exact VA|].
    intros f st1 s1 A1 A2 _ V1 K1. rewrite (project_coeff _ Ok) in V1. assert (F1 := futs_keeps_all st1 K1 ltac:(lia) F). assert (V1' := vecs_keeps_all K1 V).
    assert (F1' := futs_set F1 A2 V1 Hkj). unfold scalar_neg.
    apply wp_bind. apply (@wpx_scalar lg pl). intros s2 V2 K2. cbn [map on1] in V2. unfold set_h in V2 at 1. rewrite !Nat.eqb_refl in V2. cbn [andb] in V2.
    rewrite V1 in V2. cbn [exact aneg lift1] in V2. assert (F2 := futs_keeps_all (next st1) K2 ltac:(cbn; lia) F1'). assert (V2' := vecs_keeps_all K2 V1').
    apply wp_bind. apply (@wpx_axpy lg Hlg cs (m + 1) pl Hw (kb (j + 1)) [next_fut st1] (kb k) (- ip U (Q k) (app_op U a (Q j))) (Q k) (project_out U Q k (app_op U a (Q j))));
      [rng|rng|rng|rng|kv|apply V2'; lia|apply alpha_one; exact V2|].
    intros s3 V3 K3. apply wp_ret. split; [apply (vecs_keeps K3); [rng|lia|exact V2']|]. split; [apply (futs_keeps K3 F2)|].
    revert V3. apply (@vector_is_ext lg cs (m + 1) pl Hw); [rng|]. intros u _. rewrite (project_step _ _ Ok), (project_coeff _ Ok). ring.
  - split; [exact HV|]. split; [exact HF|]. cbn [length]. revert HA. apply (@vector_is_ext lg cs (m + 1) pl Hw); [rng|]. intros u _. unfold project_out. cbn [seq]. rewrite Rsum_nil. ring.
  - intros h' st' s' (V & F & VA). rewrite seq_length in F, VA. replace (j + 1) with (S j) in F by lia. split; [exact V|]. split; [exact F|].
    unfold w. replace (S j) with (j + 1) by lia. exact VA.
Qed.

Definition cycle_vecs (s : store) (j : nat) : Prop := vecs s (if j <? m then j else m - 1) /\ (0 < j -> j = m -> vector_is lg pl s (kb m) (W (m - 1))).
Lemma gmres_arnoldi_cycle j st s h : j < m -> j < d -> (j + 1 < m -> j + 1 < d) -> cycle_vecs s j -> futs st s h j 0 ->
  wp (gmres_arnoldi exact lg red pl m h j) (fun h' st' s' => cycle_vecs s' (S j) /\ futs st' s' h' (S j) 0) st s.
Proof.
  intros Hj Hjd Hjd' [HV _] HF. destruct (Nat.ltb_spec j m); [|lia]. unfold gmres_arnoldi.
  apply wp_bind. apply (@wpx_matvec lg Hlg cs Hre (m + 1) pl Hw (kb (j + 1)) (kb j) (Q j)); [rng|rng|rng|apply HV; lia|]. intros s1 V1 K1.
  assert (F1 := futs_keeps K1 HF). assert (W1 : vecs s1 j) by (apply (vecs_keeps K1); [rng|lia|exact HV]).
  apply wp_bind. eapply wp_conseq; [apply (gmres_orth_cycle Hj Hjd W1 F1 V1)|]. intros h2 st2 s2 (W2 & F2 & V2).
  apply wp_bind. apply (@wpx_dot lg Hlg red Hred cs (m + 1) pl Hw (kb (j + 1)) (kb (j + 1)) (W j) (W j)); [exact Hn|rng|rng|exact V2|exact V2|].
  intros fd st3 s3 A1 A2 _ V3 K3. assert (F3 := futs_keeps_all st3 K3 ltac:(lia) F2). assert (W3 := vecs_keeps_all K3 W2).
  unfold scalar_sqrt, scalar_rsqrt.
  apply wp_bind. apply (@wpx_scalar lg pl). intros s4 V4 K4. cbn [map on1] in V4. rewrite V3 in V4. cbn [exact asqrt Rsqrt_opt] in V4.
  destruct (Rlt_dec (ip U (W j) (W j)) 0) as [C|_]; [pose proof (ip_pos U (W j)); lra|]. fold (norm U (W j)) in V4.
  assert (F4 := futs_keeps_all (next st3) K4 ltac:(cbn; lia) F3). assert (W4 := vecs_keeps_all K4 W3).
  assert (F4' := futs_close F4 (ltac:(cbn; lia) : next_fut st3 < next_fut (next st3)) V4).
  assert (VW : vector_is lg pl s4 (kb (j + 1)) (W j)) by kv. unfold cycle_vecs.
  destruct (Nat.ltb_spec (j + 1) m) as [L|L].
  - apply wp_bind. apply (@wpx_scalar lg pl). intros s5 V5 K5. cbn [map on1] in V5.
    replace (s4 (LFut fd)) with (Some (ip U (W j) (W j))) in V5 by (symmetry; kf). cbn [exact adiv a1 asqrt] in V5.
    rewrite rsqrt_value in V5 by (try apply ip_pos; apply Hd; apply Hjd'; exact L).
    assert (F5 := futs_keeps_all (next (next st3)) K5 ltac:(cbn; lia) F4'). assert (W5 := vecs_keeps_all K5 W4).
    apply wp_bind. apply (@wpx_scal lg Hlg cs (m + 1) pl Hw (kb (j + 1)) (next_fut (next st3)) (/ sqrt (ip U (W j) (W j)))%R (W j)); [rng|kv|exact V5|]. intros s6 V6 K6.
    assert (W6 : vecs s6 j) by (apply (vecs_keeps K6); [rng|lia|exact W5]). apply wp_ret. split; [|apply (futs_keeps K6 F5)].
    destruct (Nat.ltb_spec (S j) m); [|lia]. split; [|lia]. destruct W6 as (X1 & X2 & X3). split; [exact X1|]. split; [exact X2|]. intros i Hi.
    destruct (Nat.eq_dec i (S j)) as [-> |Ne]; [|apply X3; lia]. replace (S j) with (j + 1) in * by lia.
    revert V6. apply (@vector_is_ext lg cs (m + 1) pl Hw); [rng|]. intros u _. replace (j + 1) with (S j) by lia. rewrite q_succ. unfold normalise, norm, Rdiv. ring.
  - apply wp_ret. split; [|exact F4']. destruct (Nat.ltb_spec (S j) m); [lia|]. split.
    + replace (m - 1) with j by lia. exact W4.
    + intros _ E. replace (m - 1) with j by lia. replace m with (j + 1) by lia. exact VW.
Qed.
Lemma gmres_loop_cycle st s h : d = m -> vecs s 0 -> futs st s h 0 0 ->
  wp (mfold (seq 0 m) h (gmres_arnoldi exact lg red pl m)) (fun h' st' s' => cycle_vecs s' m /\ futs st' s' h' m 0) st s.
Proof.
  intros Edm HV HF.
  eapply wp_conseq; [apply (@wp_mfold _ nat _ _ (fun done h' st' s' => cycle_vecs s' (length done) /\ futs st' s' h' (length done) 0) (seq 0 m))|].
  - intros done k rest h' st' s' E [V F].
    assert (Hk : k = length done /\ k < m).
    { assert (E2 := f_equal (fun l => nth (length done) l 0) E). cbv beta in E2. rewrite app_nth2, Nat.sub_diag in E2 by lia. cbn [nth] in E2.
      assert (L := f_equal (@length _) E). rewrite seq_length, app_length in L. cbn [length] in L. rewrite seq_nth in E2 by lia. lia. }
    destruct Hk as [Hk Hkj]. rewrite <- Hk in *. rewrite app_length, <- Hk. cbn [length]. replace (k + 1) with (S k) by lia.
    apply gmres_arnoldi_cycle; try assumption; lia.
  - cbn [length]. split; [|exact HF]. split; [|lia]. replace (if 0 <? m then 0 else m - 1) with 0 by (destruct m; reflexivity). exact HV.
  - intros h' st' s' H. rewrite seq_length in H. exact H.
Qed.
(** what one cycle leaves behind, besides the solution *)
Definition cycle_done (h : nat -> nat -> scalar) (s : store) : Prop :=
  (forall i, i < m -> vector_is lg pl s (kb i) (Q i)) /\ (0 < m -> vector_is lg pl s (kb m) (W (m - 1))) /\
  (forall i j, j < m -> i <= j -> s (LFut (h i j)) = Some (ip U (Q i) (app_op U a (Q j)))) /\
  (forall j, j < m -> s (LFut (h (j + 1) j)) = Some (norm U (W j))) /\
  (forall i j, j + 1 < i -> s (LFut (h i j)) = Some 0%R).
Lemma gmres_cycle c st s : d = m -> gm_pl c = pl -> gm_restart c = m -> gm_neg1 c = neg1 ->
  futs st s (gm_h c) 0 0 -> vector_is lg pl s SOL x -> vector_is lg pl s RHS b ->
  wp (gmres_step exact lg red c) (fun c' st' s' => gm_pl c' = pl /\ gm_restart c' = m /\ gm_neg1 c' = neg1 /\ futs st' s' (gm_h c') 0 0 /\
    vector_is lg pl s' SOL (fun u => x u + Rsum (fun j => Q j u) (seq 0 m))%R /\ vector_is lg pl s' RHS b /\ cycle_done (gm_h c') s') st s.
Proof.
  intros Edm Ec Er En HF HX HB. unfold gmres_step. rewrite Ec, Er, En.
  apply wp_bind. eapply wp_conseq; [apply (gmres_start_cycle HF HX HB)|]. intros [] st1 s1 [V1 F1].
  apply wp_bind. eapply wp_conseq; [apply (gmres_loop_cycle Edm V1 F1)|]. intros h st2 s2 [[V2 V2'] F2].
  apply wp_bind. apply (@wpx_scalar lg pl). intros s3 E3 K3. cbv beta in E3. assert (F3 := futs_keeps_all (next st2) K3 ltac:(cbn; lia) F2). assert (V3 := vecs_keeps_all K3 V2).
  apply wp_bind.
  eapply wp_conseq; [apply (@wp_mfor _ nat _ (fun done st' s' => st' = next st2 /\ s' (LFut (next_fut st2)) = Some 1%R /\ futs st' s' h m 0 /\
     vector_is lg pl s' SOL (fun u => x u + Rsum (fun j => Q j u) (seq 0 (length done)))%R /\ vector_is lg pl s' RHS b /\
     (forall i, i < m -> vector_is lg pl s' (kb i) (Q i)) /\ (0 < m -> vector_is lg pl s' (kb m) (W (m - 1)))) (seq 0 m))|].
  - intros done k rest st' s' E (-> & G1 & G2 & G3 & G4 & G5 & G6).
    assert (Hk : k = length done /\ k < m).
    { assert (E2 := f_equal (fun l => nth (length done) l 0) E). cbv beta in E2. rewrite app_nth2, Nat.sub_diag in E2 by lia. cbn [nth] in E2.
      assert (L := f_equal (@length _) E). rewrite seq_length, app_length in L. cbn [length] in L. rewrite seq_nth in E2 by lia. lia. }
    destruct Hk as [Hk Hkj]. rewrite <- Hk in *. rewrite app_length, <- Hk. cbn [length]. replace (k + 1) with (S k) by lia.
    apply (@wpx_axpy lg Hlg cs (m + 1) pl Hw SOL [next_fut st2] (kb k) 1 (Q k) (fun u => x u + Rsum (fun j => Q j u) (seq 0 k))%R);
      [rng|rng|rng|rng|exact G3|apply G5; exact Hkj|apply alpha_one; exact G1|]. intros s4 V4 K4.
    split; [reflexivity|]. split; [kf|]. split; [apply (futs_keeps K4 G2)|]. split.
    { revert V4. apply (@vector_is_ext lg cs (m + 1) pl Hw); [rng|]. intros u _. rewrite seq_S, Rsum_app, Rsum_cons, Rsum_nil, Nat.add_0_l. ring. }
    split; [kv|]. destruct K4 as [K4 _]. split; [intros i Hi; apply K4; [rng|rng|apply G5; exact Hi]|intros Hi; apply K4; [rng|rng|apply G6; exact Hi]].
  - split; [reflexivity|]. split; [exact E3|]. split; [exact F3|]. destruct V3 as (X1 & X2 & X3). split; [|split; [exact X2|split]].
    + cbn [length seq]. revert X1. apply (@vector_is_ext lg cs (m + 1) pl Hw); [rng|]. intros u _. rewrite Rsum_nil. ring.
    + intros i Hi. apply X3. destruct (Nat.ltb_spec m m); lia.
    + intros Hm. apply (proj1 K3). apply V2'; [exact Hm|reflexivity].
  - intros [] st' s' (-> & G1 & G2 & G3 & G4 & G5 & G6). apply wp_ret. cbn [gm_pl gm_restart gm_neg1 gm_h]. rewrite seq_length in G3.
    destruct G2 as (Y1 & Y2 & Y3 & Y4 & Y5 & Y6). split; [reflexivity|]. split; [reflexivity|]. split; [reflexivity|]. split; [|split; [exact G3|split; [exact G4|]]].
    + split; [exact Y1|]. split; [exact Y2|]. repeat split; intros; try lia. apply Y6. assumption.
    + split; [exact G5|]. split; [exact G6|]. split; [exact (fun i j H1 H2 => Y3 i j H1 H2)|]. split; [exact Y4|exact Y6].
Qed.
(** *** Breakdown *)
Notation undef := (vector_undefined lg pl).
Lemma orth_undef i j st s h : j < m -> i <= j -> undef s (kb i) ->
  wp (gmres_orthogonalise exact lg red pl j h) (fun _ _ s' => undef s' (kb i)) st s.
Proof.
  intros Hj Hi Hu. unfold gmres_orthogonalise.
  eapply wp_conseq; [apply (@wp_mfold _ nat _ _ (fun _ _ _ s' => undef s' (kb i)) (seq 0 (j + 1)))|].
  - intros done k rest h' st' s' E HU. assert (Hk : In k (seq 0 (j + 1))) by (rewrite E; apply in_or_app; right; left; reflexivity). apply in_seq in Hk.
    apply wp_bind. apply (@wpu_dot lg red cs (m + 1) pl Hw); [exact Hn|rng|rng|]. intros f st1 s1 _ _ K1. unfold scalar_neg.
    apply wp_bind. apply (@wpu_scalar lg pl). intros s2 _ K2.
    apply wp_bind. apply (@wpu_axpy lg Hlg cs (m + 1) pl Hw); [rng|rng|rng|rng|]. intros s3 _ K3. apply wp_ret.
    apply (proj1 K3); [rng|rng|]. apply (proj1 K2). apply (proj1 K1). exact HU.
  - exact Hu.
  - intros h' st' s' H. exact H.
Qed.
Lemma arnoldi_undef i j st s h : j < m -> i <= j -> undef s (kb i) -> wp (gmres_arnoldi exact lg red pl m h j) (fun _ _ s' => undef s' (kb i)) st s.
Proof.
  intros Hj Hi Hu. unfold gmres_arnoldi, scalar_sqrt, scalar_rsqrt.
  apply wp_bind. apply (@wpu_matvec lg Hlg cs (m + 1) pl Hw); [rng|rng|rng|]. intros s1 K1.
  apply wp_bind. eapply wp_conseq; [apply (@orth_undef i j st s1 h Hj Hi); apply (proj1 K1); [rng|rng|exact Hu]|]. intros h2 st2 s2 H2.
  apply wp_bind. apply (@wpu_dot lg red cs (m + 1) pl Hw); [exact Hn|rng|rng|]. intros f st3 s3 _ _ K3.
  apply wp_bind. apply (@wpu_scalar lg pl). intros s4 _ K4.
  destruct (j + 1 <? m); [|apply wp_ret; apply (proj1 K4); apply (proj1 K3); exact H2].
  apply wp_bind. apply (@wpu_scalar lg pl). intros s5 _ K5.
  apply wp_bind. apply (@wpu_scal lg Hlg cs (m + 1) pl Hw); [rng|]. intros s6 _ K6. apply wp_ret.
  apply (proj1 K6); [rng|rng|]. apply (proj1 K5). apply (proj1 K4). apply (proj1 K3). exact H2.
Qed.
Lemma seq_split k n (done : list nat) y rest : seq k n = done ++ y :: rest -> y = k + length done /\ length done < n.
Proof.
  intros E. assert (L := f_equal (@length _) E). rewrite seq_length, app_length in L. cbn [length] in L.
  assert (E2 := f_equal (fun l => nth (length done) l 0) E). cbv beta in E2. rewrite app_nth2, Nat.sub_diag in E2 by lia. cbn [nth] in E2.
  rewrite seq_nth in E2 by lia. lia.
Qed.
Lemma update_undef i f st s : i < m -> undef s (kb i) -> wp (mfor (seq 0 m) (fun j => pl_axpy exact lg pl SOL [f] (kb j))) (fun _ _ s' => undef s' SOL) st s.
Proof.
  intros Hi Hu. eapply wp_conseq; [apply (@wp_mfor _ nat _ (fun done st' s' => undef s' (kb i) /\ (i < length done -> undef s' SOL)) (seq 0 m))|].
  - intros done k rest st' s' E [H1 H2]. apply seq_split in E. destruct E as [-> L]. cbn [Nat.add] in *.
    apply (@wpu_axpy lg Hlg cs (m + 1) pl Hw); [rng|rng|rng|rng|]. intros s2 V2 K2. split; [apply (proj1 K2); [rng|rng|exact H1]|].
    rewrite app_length. cbn [length]. intros L2. apply V2. destruct (Nat.eq_dec i (length done)) as [<- |Ne]; [right; right; exact H1|right; left; apply H2; lia].
  - cbn [length]. split; [exact Hu|lia].
  - intros [] st' s' [_ H]. apply H. rewrite seq_length. exact Hi.
Qed.
(** the first division by zero: at the start (j0 = None) or while normalising vector j0 + 1 *)
Lemma gmres_break c st s : gm_pl c = pl -> gm_restart c = m -> gm_neg1 c = neg1 -> 0 < m -> d <= m ->
  futs st s (gm_h c) 0 0 -> vector_is lg pl s SOL x -> vector_is lg pl s RHS b ->
  (d < m -> 0 < d /\ ip U (W (d - 1)) (W (d - 1)) = 0%R) -> d < m ->
  wp (gmres_step exact lg red c) (fun c' st' s' => gm_pl c' = pl /\ gm_restart c' = m /\ undef s' SOL) st s.
Proof.
  intros Ec Er En Hm Hdm HF HX HB Hbr Hlt. destruct (Hbr Hlt) as [Hd0 Hz]. clear Hbr. unfold gmres_step. rewrite Ec, Er, En.
  apply wp_bind. eapply wp_conseq; [apply (gmres_start_cycle HF HX HB)|]. intros [] st1 s1 [V1 F1].
  apply wp_bind. eapply wp_conseq with (Q1 := fun _ _ s' => undef s' (kb d)).
  { eapply wp_conseq; [apply (@wp_mfold _ nat _ _ (fun done h' st' s' => (length done < d -> cycle_vecs s' (length done) /\ futs st' s' h' (length done) 0) /\ (d <= length done -> undef s' (kb d))) (seq 0 m))|].
    - intros done k rest h' st' s' E [H1 H2]. apply seq_split in E. destruct E as [-> L]. cbn [Nat.add]. rewrite app_length. cbn [length]. replace (length done + 1) with (S (length done)) by lia.
      set (j := length done) in *. destruct (Nat.lt_ge_cases (S j) d) as [L1|L1].
      + destruct (H1 ltac:(lia)) as [V F]. eapply wp_conseq; [apply (@gmres_arnoldi_cycle j st' s' h'); [exact L|lia|lia|exact V|exact F]|].
        intros h2 st2 s2 H. split; [intros _; exact H|lia].
      + destruct (Nat.eq_dec (S j) d) as [Ed|Ne].
        * destruct (H1 ltac:(lia)) as [[HV _] HFu]. destruct (Nat.ltb_spec j m); [|lia]. assert (Ej : j = d - 1) by lia.
          unfold gmres_arnoldi, scalar_sqrt, scalar_rsqrt.
          apply wp_bind. apply (@wpx_matvec lg Hlg cs Hre (m + 1) pl Hw (kb (j + 1)) (kb j) (Q j)); [rng|rng|rng|apply HV; lia|]. intros s3 V3 K3.
          assert (F3 := futs_keeps K3 HFu). assert (W3 : vecs s3 j) by (apply (vecs_keeps K3); [rng|lia|exact HV]).
          apply wp_bind. eapply wp_conseq; [apply (@gmres_orth_cycle j st' s3 h' L ltac:(lia) W3 F3 V3)|]. intros h2 st2 s2 (_ & _ & VW).
          apply wp_bind. apply (@wpx_dot lg Hlg red Hred cs (m + 1) pl Hw (kb (j + 1)) (kb (j + 1)) (W j) (W j)); [exact Hn|rng|rng|exact VW|exact VW|].
          intros fd st4 s4 A1 A2 _ V4 K4. rewrite <- Ej in Hz. rewrite Hz in V4.
          apply wp_bind. apply (@wpx_scalar lg pl). intros s5 V5 K5.
          destruct (Nat.ltb_spec (j + 1) m) as [Lj|Lj]; [|lia].
          apply wp_bind. apply (@wpx_scalar lg pl). intros s6 V6 K6. cbn [map on1] in V6.
          replace (s5 (LFut fd)) with (Some 0%R) in V6 by (symmetry; kf). cbn [exact adiv a1 asqrt Rsqrt_opt] in V6.
          destruct (Rlt_dec 0 0) as [C|_]; [lra|]. cbn [Rdiv_opt] in V6. destruct (Req_EM_T (sqrt 0) 0) as [_|C]; [|rewrite sqrt_0 in C; congruence].
          apply wp_bind. apply (@wpu_scal lg Hlg cs (m + 1) pl Hw); [rng|]. intros s7 V7 K7. apply wp_ret. split; [lia|]. intros _.
          replace d with (j + 1) by lia. apply V7. left. exact V6.
        * eapply wp_conseq; [apply (@arnoldi_undef d j st' s' h'); [exact L|lia|apply H2; lia]|]. intros h2 st2 s2 H. split; [lia|auto].
    - cbn [length]. split; [|lia]. intros _. split; [|exact F1]. split; [|lia]. replace (if 0 <? m then 0 else m - 1) with 0 by (destruct m; reflexivity). exact V1.
    - intros h' st' s' [_ H]. apply H. rewrite seq_length. lia. }
  intros h2 st2 s2 H2. apply wp_bind. apply (@wpu_scalar lg pl). intros s3 _ K3.
  apply wp_bind. eapply wp_conseq; [apply (@update_undef d); [exact Hlt|apply (proj1 K3); exact H2]|]. intros [] st4 s4 H4. apply wp_ret. cbn. auto.
Qed.
End Cycle.
(** the residual is zero *)
Lemma gmres_break_start pl (Hw : working lg cs (m + 1) pl) x c st s : gm_pl c = pl -> gm_restart c = m -> 0 < m ->
  gm_neg1 c < next_fut st -> s (LFut (gm_neg1 c)) = Some (-1)%R -> vector_is lg pl s SOL x -> vector_is lg pl s RHS b ->
  ip U (residual U a b x) (residual U a b x) = 0%R ->
  wp (gmres_step exact lg red c) (fun c' st' s' => gm_pl c' = pl /\ gm_restart c' = m /\ vector_undefined lg pl s' SOL) st s.
Proof.
  intros Ec Er Hm L1 E1 HX HB Hz. unfold gmres_step. rewrite Ec, Er. unfold gmres_start, scalar_rsqrt.
  apply wp_bind. apply wp_bind. apply (@wpx_matvec lg Hlg cs Hre (m + 1) pl Hw (kb 0) SOL x); [rng|rng|rng|exact HX|]. intros s1 V1 K1.
  apply wp_bind. apply (@wpx_xpay lg Hlg cs (m + 1) pl Hw (kb 0) [gm_neg1 c] RHS (-1)%R b (app_op U a x)); [rng|rng|rng|rng|exact V1|kv|apply alpha_one; kf|].
  intros s2 V2 K2.
  assert (V2' : vector_is lg pl s2 (kb 0) (residual U a b x)).
  { revert V2. apply (@vector_is_ext lg cs (m + 1) pl Hw); [rng|]. intros u _. unfold residual. ring. }
  apply wp_bind. apply (@wpx_dot lg Hlg red Hred cs (m + 1) pl Hw (kb 0) (kb 0) (residual U a b x) (residual U a b x)); [exact Hn|rng|rng|exact V2'|exact V2'|].
  intros fr st3 s3 A1 A2 _ V3 K3. rewrite Hz in V3.
  apply wp_bind. apply (@wpx_scalar lg pl). intros s4 V4 K4. cbn [map on1] in V4. rewrite V3 in V4. cbn [exact adiv a1 asqrt Rsqrt_opt] in V4.
  destruct (Rlt_dec 0 0) as [C|_]; [lra|]. cbn [Rdiv_opt] in V4. destruct (Req_EM_T (sqrt 0) 0) as [_|C]; [|rewrite sqrt_0 in C; congruence].
  apply (@wpu_scal lg Hlg cs (m + 1) pl Hw); [rng|]. intros s5 V5 K5. assert (U5 : vector_undefined lg pl s5 (kb 0)) by (apply V5; left; exact V4).
  apply wp_bind. eapply wp_conseq; [apply (@wp_mfold _ nat _ _ (fun _ _ _ s' => vector_undefined lg pl s' (kb 0)) (seq 0 m))|].
  - intros done k rest h' st' s' E HU. apply seq_split in E. apply (@arnoldi_undef pl Hw 0 k); [lia|lia|exact HU].
  - exact U5.
  - intros h2 st2 s6 H6. apply wp_bind. apply (@wpu_scalar lg pl). intros s7 _ K7.
    apply wp_bind. eapply wp_conseq; [apply (@update_undef pl Hw 0); [exact Hm|apply (proj1 K7); exact H6]|]. intros [] st8 s8 H8. apply wp_ret. cbn. auto.
Qed.
(** once lost, the solution stays lost *)
Definition gm_lost (c : gmres (option R)) (s : store) : Prop :=
  working lg cs (m + 1) (gm_pl c) /\ pl_sol (gm_pl c) = sols_of cs /\ gm_restart c = m /\ vector_undefined lg (gm_pl c) s SOL.
Lemma gmres_step_lost c st s : gm_lost c s -> wp (gmres_step exact lg red c) (fun c' _ s' => gm_lost c' s') st s.
Proof.
  intros (Hw & C3 & Cr & Hu). unfold gmres_step. rewrite Cr. set (pl := gm_pl c) in *. unfold gmres_start, scalar_rsqrt.
  apply wp_bind. apply wp_bind. apply (@wpu_matvec lg Hlg cs (m + 1) pl Hw); [rng|rng|rng|]. intros s1 K1.
  apply wp_bind. apply (@wpu_xpay lg Hlg cs (m + 1) pl Hw); [rng|rng|rng|rng|]. intros s2 _ K2.
  apply wp_bind. apply (@wpu_dot lg red cs (m + 1) pl Hw); [exact Hn|rng|rng|]. intros f st3 s3 _ _ K3.
  apply wp_bind. apply (@wpu_scalar lg pl). intros s4 _ K4.
  apply (@wpu_scal lg Hlg cs (m + 1) pl Hw); [rng|]. intros s5 _ K5.
  assert (U5 : vector_undefined lg pl s5 SOL).
  { apply (proj1 K5); [rng|rng|]. apply (proj1 K4). apply (proj1 K3). apply (proj1 K2); [rng|rng|]. apply (proj1 K1); [rng|rng|]. exact Hu. }
  apply wp_bind. eapply wp_conseq; [apply (@wp_mfold _ nat _ _ (fun _ _ _ s' => vector_undefined lg pl s' SOL) (seq 0 m))|].
  - intros done j rest h' st' s' E HU. apply seq_split in E. destruct E as [-> Lj]. cbn [Nat.add]. set (j := length done) in *.
    unfold gmres_arnoldi, scalar_sqrt, scalar_rsqrt, gmres_orthogonalise.
    apply wp_bind. apply (@wpu_matvec lg Hlg cs (m + 1) pl Hw); [rng|rng|rng|]. intros s6 K6.
    apply wp_bind. eapply wp_conseq; [apply (@wp_mfold _ nat _ _ (fun _ _ _ s' => vector_undefined lg pl s' SOL) (seq 0 (j + 1)))|].
    + intros done' k rest' h2 st2 s7 E2 HU2. apply seq_split in E2.
      apply wp_bind. apply (@wpu_dot lg red cs (m + 1) pl Hw); [exact Hn|rng|rng|]. intros f1 st4 s8 _ _ K8. unfold scalar_neg.
      apply wp_bind. apply (@wpu_scalar lg pl). intros s9 _ K9.
      apply wp_bind. apply (@wpu_axpy lg Hlg cs (m + 1) pl Hw); [rng|rng|rng|rng|]. intros s10 _ K10. apply wp_ret.
      apply (proj1 K10); [rng|rng|]. apply (proj1 K9). apply (proj1 K8). exact HU2.
    + apply (proj1 K6); [rng|rng|]. exact HU.
    + intros h2 st2 s7 H7. apply wp_bind. apply (@wpu_dot lg red cs (m + 1) pl Hw); [exact Hn|rng|rng|]. intros f1 st4 s8 _ _ K8.
      apply wp_bind. apply (@wpu_scalar lg pl). intros s9 _ K9.
      destruct (j + 1 <? m); [|apply wp_ret; apply (proj1 K9); apply (proj1 K8); exact H7].
      apply wp_bind. apply (@wpu_scalar lg pl). intros s10 _ K10.
      apply wp_bind. apply (@wpu_scal lg Hlg cs (m + 1) pl Hw); [rng|]. intros s11 _ K11. apply wp_ret.
      apply (proj1 K11); [rng|rng|]. apply (proj1 K10). apply (proj1 K9). apply (proj1 K8). exact H7.
  - exact U5.
  - intros h2 st2 s6 H6. apply wp_bind. apply (@wpu_scalar lg pl). intros s7 _ K7. apply wp_bind.
    eapply wp_conseq; [apply (@wp_mfor _ nat _ (fun _ _ s' => vector_undefined lg pl s' SOL) (seq 0 m))|].
    + intros done j rest st' s' E HU. apply seq_split in E. apply (@wpu_axpy lg Hlg cs (m + 1) pl Hw); [rng|rng|rng|rng|]. intros s8 V8 K8. apply V8. right; left; exact HU.
    + apply (proj1 K7). exact H6.
    + intros [] st4 s8 H8. apply wp_ret. unfold gm_lost. cbn. auto.
Qed.

Variable x0 : unknown -> R.
Notation X k := (sum_iter U a x0 b m k).
Record gm_inv (k : nat) (c : gmres (option R)) (st : ist) (s : store) : Prop := mk_gm_inv {
  gi_working : working lg cs (m + 1) (gm_pl c);
  gi_sol : pl_sol (gm_pl c) = sols_of cs;
  gi_rhs : pl_rhs (gm_pl c) = rhss_of cs;
  gi_restart : gm_restart c = m;
  gi_futs : futs (X 0) (gm_neg1 c) st s (gm_h c) 0 0;
  gi_x : vector_is lg (gm_pl c) s SOL (X k);
  gi_b : vector_is lg (gm_pl c) s RHS b;
  gi_cycle : match k with 0 => True | S k' => cycle_done (gm_pl c) (X k') (gm_h c) s end }.
Lemma futs_any x y neg1 st s h : futs x neg1 st s h 0 0 -> futs y neg1 st s h 0 0.
Proof. intros (F1 & F2 & _ & _ & _ & F6). split; [exact F1|]. split; [exact F2|]. repeat split; intros; try lia. apply F6. assumption. Qed.
Lemma gmres_new_inv st pl0 s : set_up lg cs st pl0 -> vectors_hold lg s (sols_of cs) x0 -> vectors_hold lg s (rhss_of cs) b ->
  wp (gmres_new exact lg pl0 m) (gm_inv 0) st s.
Proof.
  intros Hs Hx Hb. unfold gmres_new, scalar_const.
  apply wp_bind. apply wp_scalar_task. intros s1 E1 F1. cbn [exact aneg a1 lift1] in E1.
  apply wp_bind. apply (@wp_allocate _ lg cs _ pl0 (m + 1) _ s1); [apply (@set_up_next _ lg cs st); [cbn; lia|exact Hs]|].
  intros pl st1 Hw C3 C4 N1. cbn [next next_fut] in N1.
  apply wp_bind. apply wp_scalar_task. intros s2 E2 F2. cbn [exact a0] in E2.
  assert (K : forall vs f, vectors_hold lg s vs f -> vectors_hold lg s2 vs f).
  { intros vs f H i v p Hv Hp. rewrite F2, F1 by discriminate. apply (H i v p Hv Hp). }
  apply wp_ret. constructor; cbn [gm_pl gm_restart gm_neg1 gm_h]; auto.
  - split; [split; [cbn [next next_fut]; lia|rewrite F2 by (intros C; injection C; lia); exact E1]|]. split; [intros _ _; cbn [next next_fut]; lia|].
    repeat split; intros; try lia. exact E2.
  - apply sol_vector_is. rewrite C3. apply K. exact Hx.
  - apply rhs_vector_is. rewrite C4. apply K. exact Hb.
Qed.
Lemma gmres_step_inv k c st s : gm_inv k c st s -> sum_defined U a x0 b m k -> wp (gmres_step exact lg red c) (gm_inv (S k)) st s.
Proof.
  intros [Hw C3 C4 Cr HF HX HB _] Hd.
  eapply wp_conseq; [apply (@gmres_cycle (gm_pl c) Hw (X k) m Hd (gm_neg1 c) c st s eq_refl eq_refl Cr eq_refl (futs_any (X k) HF) HX HB)|].
  intros c' st' s' (E1 & E2 & E3 & F & V1 & V2 & V3). constructor; rewrite ?E1, ?E2, ?E3; auto. apply (futs_any _ F).
Qed.
Lemma gmres_steps_inv c st s : gm_inv 0 c st s -> forall k, (forall j, j < k -> sum_defined U a x0 b m j) -> wp (gmres_steps exact lg red k c) (gm_inv k) st s.
Proof.
  intros H. induction k as [|k IH]; intros Hd; [apply wp_ret; exact H|]. cbn [gmres_steps]. apply wp_bind. eapply wp_conseq; [apply IH; intros j Hj; apply Hd; lia|].
  intros c2 st2 s2 H2. apply gmres_step_inv; [exact H2|apply Hd; lia].
Qed.
Lemma gmres_run_inv st pl0 s k : set_up lg cs st pl0 -> vectors_hold lg s (sols_of cs) x0 -> vectors_hold lg s (rhss_of cs) b ->
  (forall j, j < k -> sum_defined U a x0 b m j) -> wp (gmres_run exact lg red pl0 m k) (gm_inv k) st s.
Proof.
  intros Hs Hx Hb Hd. unfold gmres_run. apply wp_bind. eapply wp_conseq; [apply gmres_new_inv; eassumption|]. intros c st' s' H.
  apply gmres_steps_inv; assumption.
Qed.
Lemma break_point r : ~ arnoldi_defined U a r m -> ip U r r = 0%R \/ exists d, 0 < d /\ d < m /\ arnoldi_defined U a r d /\ ip U (w U a r (d - 1)) (w U a r (d - 1)) = 0%R.
Proof.
  intros H. destruct (Req_dec (ip U r r) 0) as [E|E]; [left; exact E|right].
  assert (G : forall n, (forall j, j + 1 < n -> ip U (w U a r j) (w U a r j) <> 0%R) \/
     exists d, 0 < d /\ d < n /\ arnoldi_defined U a r d /\ ip U (w U a r (d - 1)) (w U a r (d - 1)) = 0%R).
  { induction n as [|n [IH|(d & D1 & D2 & D3)]]; [left; intros j Hj; lia| |right; exists d; split; [exact D1|]; split; [lia|exact D3]].
    destruct n as [|n]; [left; intros j Hj; lia|]. destruct (Req_dec (ip U (w U a r n) (w U a r n)) 0) as [Z|Z].
    - right. exists (S n). split; [lia|]. split; [lia|]. split; [split; [exact E|exact IH]|]. replace (S n - 1) with n by lia. exact Z.
    - left. intros j Hj. destruct (Nat.eq_dec j n) as [-> |Ne]; [exact Z|apply IH; lia]. }
  destruct (G m) as [G1|G1]; [exfalso; apply H; split; [exact E|exact G1]|exact G1].
Qed.
Lemma gmres_step_break k c st s : 0 < m -> gm_inv k c st s -> ~ sum_defined U a x0 b m k -> wp (gmres_step exact lg red c) (fun c' _ s' => gm_lost c' s') st s.
Proof.
  intros Hm [Hw C3 C4 Cr HF HX HB _] Hd. unfold gm_lost. apply break_point in Hd. destruct Hd as [Z|(d & D1 & D2 & D3 & D4)].
  - eapply wp_conseq; [apply (@gmres_break_start (gm_pl c) Hw (X k) c st s eq_refl Cr Hm); [apply HF|apply HF|exact HX|exact HB|exact Z]|].
    intros c' st' s' (E1 & E2 & H). rewrite E1. auto.
  - eapply wp_conseq; [apply (@gmres_break (gm_pl c) Hw (X k) d D3 (gm_neg1 c) c st s eq_refl Cr eq_refl Hm); [lia|apply (futs_any (X k) HF)|exact HX|exact HB|intros _; split; [exact D1|exact D4]|exact D2]|].
    intros c' st' s' (E1 & E2 & H). rewrite E1. auto.
Qed.
Lemma gmres_run_lost st pl0 s k n : 0 < m -> set_up lg cs st pl0 -> vectors_hold lg s (sols_of cs) x0 -> vectors_hold lg s (rhss_of cs) b ->
  (forall j, j < k -> sum_defined U a x0 b m j) -> ~ sum_defined U a x0 b m k -> k < n -> wp (gmres_run exact lg red pl0 m n) (fun c' _ s' => gm_lost c' s') st s.
Proof.
  intros Hm Hs Hx Hb Hd Hnd Hkn. unfold gmres_run. apply wp_bind. eapply wp_conseq; [apply gmres_new_inv; eassumption|]. intros c st' s' H.
  induction n as [|n IH]; [lia|]. cbn [gmres_steps]. apply wp_bind. destruct (Nat.eq_dec n k) as [-> |Ne].
  - eapply wp_conseq; [apply gmres_steps_inv; eassumption|]. intros c2 st2 s2 H2. apply (gmres_step_break Hm H2 Hnd).
  - eapply wp_conseq; [apply IH; lia|]. intros c2 st2 s2 H2. apply gmres_step_lost. exact H2.
Qed.
End GMRES.

Lemma Rsum_le {P} (f g : P -> R) l : (forall p, In p l -> f p <= g p)%R -> (Rsum f l <= Rsum g l)%R.
Proof.
  induction l as [|p l IH]; intros H; [rewrite !Rsum_nil; lra|]. rewrite !Rsum_cons. assert (A := H p (or_introl eq_refl)).
  assert (B := IH (fun q Hq => H q (or_intror Hq))). lra.
Qed.

(** ** C41 *)
Section Statements.
Variable lg : legion.
Variable red : nat -> list (option R) -> option R.
Variable cs : list (setup_call (option R)).
Variable st : ist.
Variable pl0 : planner (option R).
Variable s : store loc (option R).
Variables x0 b : unknown -> R.
Variable restart : nat.
Notation us := (unknowns lg cs).
Notation a := (operator cs).
(** a solver set up for the system, with initial guess [x0] and right-hand side [b] *)
Definition gmres_problem : Prop :=
  legion_ok lg /\ legal_reduction exact red /\ set_up lg cs st pl0 /\ real_entries cs /\ 0 < length (sols_of cs) /\
  vectors_hold lg s (sols_of cs) x0 /\ vectors_hold lg s (rhss_of cs) b.
(** after [k] steps every entry of the solution is undefined / the solution is [x] *)
Definition gmres_lost (k : nat) : Prop :=
  forall c st' s', ends (gmres_run exact lg red pl0 restart k) st s c st' s' ->
    forall v p, In v (sols_of cs) -> In p (is_points lg (pv_space v)) -> s' (at_point v p) = None.
Definition gmres_holds (k : nat) (x : unknown -> R) : Prop :=
  forall c st' s', ends (gmres_run exact lg red pl0 restart k) st s c st' s' -> vectors_hold lg s' (sols_of cs) x.

Lemma first_break m k : (forall j, j < k -> sum_defined us a x0 b m j) \/ exists i, i < k /\ (forall j, j < i -> sum_defined us a x0 b m j) /\ ~ sum_defined us a x0 b m i.
Proof.
  induction k as [|k [IH|(i & I1 & I2 & I3)]]; [left; intros j Hj; lia| |right; exists i; split; [lia|auto]].
  destruct (classic (sum_defined us a x0 b m k)) as [Y|N]; [left; intros j Hj; destruct (Nat.eq_dec j k) as [-> |Ne]; [exact Y|apply IH; lia]|right; exists k; auto].
Qed.
Lemma run_accepted k : gmres_problem -> accepted (gmres_run exact lg red pl0 restart k) st.
Proof. intros (Hlg & Hred & Hs & Hre & Hn & Hx & Hb). apply (@C54_gmres_runs _ exact lg red cs st pl0 s restart k Hlg Hs Hn). Qed.
Lemma run_lost k n : gmres_problem -> 0 < restart -> (forall j, j < k -> sum_defined us a x0 b restart j) -> ~ sum_defined us a x0 b restart k -> k < n -> gmres_lost n.
Proof.
  intros (Hlg & Hred & Hs & Hre & Hn & Hx & Hb) Hr Hd Hnd Hkn. assert (W := @gmres_run_lost lg Hlg red Hred cs Hre Hn restart b x0 st pl0 s k n Hr Hs Hx Hb Hd Hnd Hkn).
  intros c st' s' He v p Hv Hp. destruct (wp_ends W He) as [s1 [(Hw & C3 & _ & Q) E]].
  rewrite E. destruct (In_nth_error _ _ Hv) as [i Hi]. apply (Q i v p); [|exact Hp]. unfold component, get_vector, vector_row, SOL. cbn [obind]. rewrite C3, Hi. reflexivity.
Qed.
Lemma run_holds k : gmres_problem -> (forall j, j < k -> sum_defined us a x0 b restart j) -> gmres_holds k (sum_iter us a x0 b restart k).
Proof.
  intros (Hlg & Hred & Hs & Hre & Hn & Hx & Hb) Hd. assert (W := @gmres_run_inv lg Hlg red Hred cs Hre Hn restart b x0 st pl0 s k Hs Hx Hb Hd).
  intros c st' s' He. destruct (wp_ends W He) as [s1 [[Hw C3 C4 _ _ HX _ _] E]].
  rewrite <- C3. apply (proj1 (@sol_vector_is lg (gm_pl c) s' _)). exact (@vector_is_eq lg (gm_pl c) s1 s' _ _ E HX).
Qed.
Lemma not_both k x : gmres_problem -> us <> [] -> gmres_lost k -> gmres_holds k x -> False.
Proof.
  intros (Hlg & Hred & Hs & Hre & Hn & Hx & Hb) Hu H1 H2. destruct (@C54_gmres_runs _ exact lg red cs st pl0 s restart k Hlg Hs Hn) as [_ [(c & st' & s' & He) _]].
  destruct us as [|[i p] l] eqn:EU; [congruence|]. assert (HI : In (i, p) us) by (rewrite EU; left; reflexivity). apply in_unknowns in HI. destruct HI as [Hi Hp].
  destruct (nth_error (sols_of cs) i) as [v|] eqn:Hv; [|apply nth_error_None in Hv; lia]. unfold space_of in Hp. rewrite (nth_error_nth _ _ _ Hv) in Hp.
  assert (A1 := H2 c st' s' He i v p Hv Hp). rewrite (H1 c st' s' He v p (nth_error_In _ _ Hv) Hp) in A1. discriminate.
Qed.
Lemma holds_unique k x y : gmres_problem -> gmres_holds k x -> gmres_holds k y -> forall u, In u us -> x u = y u.
Proof.
  intros (Hlg & Hred & Hs & Hre & Hn & Hx & Hb) H1 H2 [i p] HI. destruct (@C54_gmres_runs _ exact lg red cs st pl0 s restart k Hlg Hs Hn) as [_ [(c & st' & s' & He) _]].
  apply in_unknowns in HI. destruct HI as [Hi Hp]. destruct (nth_error (sols_of cs) i) as [v|] eqn:Hv; [|apply nth_error_None in Hv; lia].
  unfold space_of in Hp. rewrite (nth_error_nth _ _ _ Hv) in Hp. assert (A1 := H1 c st' s' He i v p Hv Hp). rewrite (H2 c st' s' He i v p Hv Hp) in A1. congruence.
Qed.

(** One restart cycle, from any state reached by [k] earlier ones: either it ends with the whole solution undefined, or
    the workspace holds an orthonormal basis [q] starting with the normalised residual and the recorded inner products
    [h] satisfy the Arnoldi relation; the solution moves by the plain sum of the basis vectors. *)
Theorem C41_gmres_cycle : gmres_problem -> 0 < restart -> forall k, accepted (gmres_run exact lg red pl0 restart (S k)) st /\
  (gmres_lost (S k) \/
   exists (x x' : unknown -> R) (q : nat -> unknown -> R) (last : unknown -> R) (h : nat -> nat -> R),
    gmres_holds k x /\ gmres_holds (S k) x' /\
    (* what is stored *)
    (forall c st' s', ends (gmres_run exact lg red pl0 restart (S k)) st s c st' s' ->
       (forall i, i < restart -> vector_is lg (gm_pl c) s' (krylov_basis i) (q i)) /\ vector_is lg (gm_pl c) s' (krylov_basis restart) last /\
       (forall i j, i <= restart -> j < restart -> s' (LFut (gm_h c i j)) = Some (h i j))) /\
    (* the basis *)
    (exists d : R, (0 < d)%R /\ (d * d = Rsum (fun u => (b u - apply_op us a x u) * (b u - apply_op us a x u)) us)%R /\
       forall u, (d * q 0%nat u = b u - apply_op us a x u)%R) /\
    (forall i j, i < restart -> j < restart -> Rsum (fun u => q i u * q j u)%R us = if Nat.eq_dec i j then 1%R else 0%R) /\
    (forall i, i < restart -> Rsum (fun u => q i u * last u)%R us = 0%R) /\
    (* the Arnoldi relation *)
    (forall j u, j + 1 < restart -> apply_op us a (q j) u = Rsum (fun i => h i j * q i u)%R (seq 0 (j + 2))) /\
    (forall u, apply_op us a (q (restart - 1)) u = (Rsum (fun i => h i (restart - 1)%nat * q i u) (seq 0 restart) + last u)%R) /\
    (forall i j, j + 1 < i -> h i j = 0%R) /\ (forall j, j + 1 < restart -> (0 < h (j + 1)%nat j)%R) /\
    (h restart (restart - 1)%nat * h restart (restart - 1)%nat = Rsum (fun u => last u * last u) us)%R /\
    (* the update *)
    forall u, (x' u = x u + Rsum (fun j => q j u) (seq 0 restart))%R).
Proof.
  intros HP Hr k. split; [apply run_accepted; exact HP|]. destruct (first_break restart (S k)) as [Hd|(i & I1 & I2 & I3)]; [right|left; apply (run_lost HP Hr I2 I3); lia].
  set (x := sum_iter us a x0 b restart k). set (r := residual us a b x). assert (D : arnoldi_defined us a r restart) by (apply (Hd k); lia).
  assert (O := q_orthonormal D).
  exists x, (sum_iter us a x0 b restart (S k)), (q us a r), (w us a r (restart - 1)), (fun i j => if i <=? j then ip us (q us a r i) (app_op us a (q us a r j)) else if i =? j + 1 then norm us (w us a r j) else 0%R).
  split; [apply run_holds; [exact HP|intros j Hj; apply Hd; lia]|]. split; [apply run_holds; [exact HP|exact Hd]|].
  split; [|split; [|split; [|split; [|split; [|split; [|split; [|split; [|split]]]]]]]].
  - destruct HP as (Hlg & Hred & Hs & Hre & Hn & Hx & Hb). assert (W := @gmres_run_inv lg Hlg red Hred cs Hre Hn restart b x0 st pl0 s (S k) Hs Hx Hb Hd).
    intros c st' s' He. destruct (wp_ends W He) as [s1 [[Hw C3 C4 _ _ HX _ (Y1 & Y2 & Y3 & Y4 & Y5)] E]]. fold x r in Y1, Y2, Y3, Y4.
    split; [intros i Hi; exact (@vector_is_eq lg (gm_pl c) s1 s' _ _ E (Y1 i Hi))|]. split; [exact (@vector_is_eq lg (gm_pl c) s1 s' _ _ E (Y2 Hr))|].
    intros i j Hi Hj. rewrite E. destruct (Nat.leb_spec i j) as [L|L]; [apply (Y3 i j Hj L)|]. destruct (Nat.eqb_spec i (j + 1)) as [-> |Ne]; [apply Y4; exact Hj|apply Y5; lia].
  - exists (norm us r). split; [apply norm_pos; apply D|]. split; [apply norm_sq|]. intros u. change (q us a r 0%nat u) with (normalise us r u). unfold normalise.
    assert (N := @norm_pos _ us r (proj1 D)). change (b u - apply_op us a x u)%R with (r u). field. lra.
  - intros i j Hi Hj. apply (O i j Hi Hj).
  - intros i Hi. apply (w_orth D); lia.
  - intros j u Hj. change (apply_op us a) with (app_op us a). rewrite (arnoldi_relation us a r), (@w_scaled _ us a r j u (proj2 D j Hj)). replace (j + 2) with (S (S j)) by lia.
    rewrite (seq_S (S j) 0), Rsum_app, Rsum_cons, Rsum_nil, Nat.add_0_l. destruct (Nat.leb_spec (S j) j); [lia|]. destruct (Nat.eqb_spec (S j) (j + 1)); [|lia].
    rewrite Rplus_0_r. f_equal. apply Rsum_ext. intros i Hi. apply in_seq in Hi. destruct (Nat.leb_spec i j); [reflexivity|lia].
  - intros u. change (apply_op us a) with (app_op us a). rewrite (arnoldi_relation us a r). replace (S (restart - 1)) with restart by lia. f_equal.
    apply Rsum_ext. intros i Hi. apply in_seq in Hi. destruct (Nat.leb_spec i (restart - 1)); [reflexivity|lia].
  - intros i j Hij. destruct (Nat.leb_spec i j); [lia|]. destruct (Nat.eqb_spec i (j + 1)); [lia|reflexivity].
  - intros j Hj. destruct (Nat.leb_spec (j + 1) j); [lia|]. rewrite Nat.eqb_refl. apply norm_pos. apply D. exact Hj.
  - destruct (Nat.leb_spec restart (restart - 1)); [lia|]. destruct (Nat.eqb_spec restart (restart - 1 + 1)); [|lia]. apply norm_sq.
  - intros u. reflexivity.
Qed.

(** ** C42.  A cycle does not minimise anything: the solution moves by exactly sqrt(restart), whatever the system. *)
Theorem C42_gmres_fixed_length : gmres_problem -> 0 < restart -> forall k x x', gmres_holds k x -> gmres_holds (S k) x' -> us <> [] ->
  Rsum (fun u => (x' u - x u) * (x' u - x u))%R us = INR restart /\
  (* so no point is close to both: the iterates do not converge *)
  forall z, (INR restart / 2 <= Rsum (fun u => (x u - z u) * (x u - z u)) us + Rsum (fun u => (x' u - z u) * (x' u - z u)) us)%R.
Proof.
  intros HP Hr k x x' Hx Hx' Hu. destruct (first_break restart (S k)) as [Hd|(i & I1 & I2 & I3)];
    [|exfalso; apply (@not_both (S k) x' HP Hu); [apply (run_lost HP Hr I2 I3); lia|exact Hx']].
  assert (Hd' : forall j, j < k -> sum_defined us a x0 b restart j) by (intros j Hj; apply Hd; lia).
  assert (E1 := holds_unique HP Hx (run_holds HP Hd')). assert (E2 := holds_unique HP Hx' (run_holds HP Hd)).
  set (y := sum_iter us a x0 b restart k) in *. set (r := residual us a b y). assert (D : arnoldi_defined us a r restart) by (apply (Hd k); lia).
  assert (L : Rsum (fun u => (x' u - x u) * (x' u - x u))%R us = INR restart).
  { rewrite <- (sum_length (q_orthonormal D)). apply Rsum_ext. intros u Hin. rewrite (E1 u Hin), (E2 u Hin). cbn [sum_iter]. fold y. fold r. ring. }
  split; [exact L|]. intros z. rewrite <- L.
  assert (G : (Rsum (fun u => (x' u - x u) * (x' u - x u)) us <= 2 * (Rsum (fun u => (x u - z u) * (x u - z u)) us + Rsum (fun u => (x' u - z u) * (x' u - z u)) us))%R).
  { rewrite <- Rsum_plus, <- Rsum_scal. apply Rsum_le. intros u _.
    assert (0 <= ((x' u - z u) + (x u - z u)) * ((x' u - z u) + (x u - z u)))%R by apply Rle_0_sqr. lra. }
  lra.
Qed.

(** ** C58.  With a restart length above the number of unknowns the first step already loses the solution. *)
Theorem C58_restart_too_large : gmres_problem -> length us < restart -> forall k, 0 < k -> accepted (gmres_run exact lg red pl0 restart k) st /\ gmres_lost k.
Proof.
  intros HP Hr k Hk. split; [apply run_accepted; exact HP|]. assert (Hlg := proj1 HP).
  apply (@run_lost 0 k HP); [lia|intros j Hj; lia| |exact Hk]. intros D.
  assert (Hnd : NoDup us) by (apply (@unknowns_nodup _ lg); exact Hlg). assert (B := arnoldi_bounded unknown_dec Hnd (ltac:(lia) : (0 < restart)%nat) D). lia.
Qed.

(** ** C59.  A step from an exact solution loses it. *)
Theorem C59_gmres_past_convergence : gmres_problem -> 0 < restart -> forall k x, gmres_holds k x ->
  (forall u, In u us -> apply_op us a x u = b u) -> forall n, k < n -> accepted (gmres_run exact lg red pl0 restart n) st /\ gmres_lost n.
Proof.
  intros HP Hr k x Hx Hsol n Hn. split; [apply run_accepted; exact HP|].
  destruct (list_eq_dec unknown_dec us []) as [Eu|Eu].
  { intros c st' s' _ v p Hv Hp. exfalso. destruct (In_nth_error _ _ Hv) as [i Hi]. assert (HI : In (i, p) us); [|rewrite Eu in HI; exact HI]. apply in_unknowns.
    split; [apply nth_error_Some; congruence|]. unfold space_of. rewrite (nth_error_nth _ _ _ Hi). exact Hp. }
  destruct (first_break restart k) as [Hd|(i & I1 & I2 & I3)]; [|apply (run_lost HP Hr I2 I3); lia].
  apply (@run_lost k n HP Hr Hd); [|exact Hn]. intros [D _]. apply D. apply vzero_ip. intros u Hu. unfold residual.
  rewrite <- (Hsol u Hu). assert (E := holds_unique HP Hx (run_holds HP Hd)). change (apply_op us a) with (app_op us a).
  match goal with |- (?p - ?q)%R = 0%R => replace q with p; [ring|] end. apply app_ext. intros v Hv. apply E. exact Hv.
Qed.
End Statements.
