(** PropsFloatBiCG: property C76 (BiCGStab in float and double). *)
From Coq Require Import Reals Lra Lia ZArith.
From Coq Require Import Floats.SpecFloat.
From Verif Require Import Base Index Outcome Sched Async Arith Launch Vector PartitionSpec VectorFacts LaunchFacts Matrix MatrixSpec MatrixFacts
  MatvecFacts Builder BuilderFacts Exec ExactSum LinAlg Planner PlannerFacts PlannerSetup Solvers PropsVector PropsMatrix PropsPlanner PropsSolver SolverFacts PropsCG PropsCGConv
  Float FloatSum PropsFloat FloatPlanner FloatCGSpec PropsFloatCG FloatOps FloatBiCGSpec FloatBiCG.
Set Implicit Arguments.

Ltac rng := unfold SOL, RHS, BI_P, BI_R, BI_RT, BI_U, BI_V in *; cbn [length] in *; lia.
Ltac kv :=
  first
  [ eassumption
  | match goal with
    | K : fkeeps _ _ _ _ ?s1 ?s2 |- vector_contains _ _ ?s2 _ _ => apply (proj1 K); [rng|rng|kv]
    | K : fkeeps_all _ _ _ ?s1 ?s2 |- vector_contains _ _ ?s2 _ _ => apply (proj1 K); kv
    end ].
Ltac kf :=
  first
  [ eassumption
  | match goal with
    | K : fkeeps _ _ _ _ ?s1 ?s2 |- ?s2 (LFut _) = _ => rewrite (proj2 K); kf
    | K : fkeeps_all _ _ _ ?s1 ?s2 |- ?s2 (LFut _) = _ => rewrite (proj2 K) by (cbn [next next_fut] in *; lia); kf
    end ].

Section Run.
Variables p e : Z.
Hypothesis Hpe : format p e.
Variable lg : legion.
Hypothesis Hlg : legion_ok lg.
Variable red : nat -> list spec_float -> spec_float.
Notation A := (ieee p e).
Hypothesis Hred : legal_reduction A red.
Variable cs : list (setup_call spec_float).
Hypothesis Hdom : forall m d r, In (m, d, r) (mats_of cs) -> d < length (sols_of cs).
Hypothesis Hfe : float_entries p e cs.
Notation U := (unknowns lg cs).
Notation n := (length (sols_of cs)).
Notation store := (store loc spec_float).
Hypothesis Hn : 0 < n.
Variables x0 b : unknown -> spec_float.
Hypothesis Fx0 : forall u, In u U -> is_float p e (x0 u).
Hypothesis Fb : forall u, In u U -> is_float p e (b u).
Notation a := (coefficient_of fvalue cs).
Notation mag := (coefficient_of (fun x => Rabs (fvalue x)) cs).
Notation count := (entry_count lg cs).
Notation neg1 := (aneg A (a1 A)).
Notation form := (bform p e U a mag count b neg1).

Definition fhistory (st : ist) (s : store) (l : list scalar) (k : nat) (f : nat -> spec_float) : Prop :=
  length l = S k /\ forall j c, nth_error l j = Some c -> c < next_fut st /\ s (LFut c) = f j.
Lemma fhistory_one st s c f : c < next_fut st -> s (LFut c) = f 0 -> fhistory st s [c] 0 f.
Proof. intros L E. split; [reflexivity|]. intros [|[|j]] d Hd; cbn in Hd; try discriminate. injection Hd as <-. auto. Qed.
Lemma fhistory_push st st' (s s' : store) l k f g c : fhistory st s l k f -> next_fut st <= next_fut st' -> (forall d, d < next_fut st -> s' (LFut d) = s (LFut d)) ->
  c < next_fut st' -> (forall j, j <= k -> g j = f j) -> s' (LFut c) = g (S k) -> fhistory st' s' (l ++ [c]) (S k) g.
Proof.
  intros [HL HN] Hst Hk L Hg E. split; [rewrite app_length, HL; cbn; lia|]. intros j d Hd. destruct (Nat.lt_ge_cases j (S k)) as [Hj|Hj].
  - rewrite nth_error_app1 in Hd by lia. destruct (HN j d Hd) as [N V]. split; [lia|]. rewrite Hk by exact N. rewrite Hg by lia. exact V.
  - rewrite nth_error_app2 in Hd by lia. rewrite HL in Hd. destruct (j - S k) as [|i] eqn:Ej; [|destruct i; discriminate]. injection Hd as <-.
    assert (j = S k) by lia. subst j. split; [exact L|exact E].
Qed.
Lemma fhistory_last st s l k f : fhistory st s l k f -> exists c, nth_error l k = Some c /\ c < next_fut st /\ s (LFut c) = f k.
Proof.
  intros [HL HN]. destruct (nth_error l k) as [c|] eqn:E; [|apply nth_error_None in E; lia]. exists c. split; [reflexivity|]. apply (HN k c E).
Qed.
Lemma fwp_back X (l : list X) j x (Q : X -> ist -> store -> Prop) st s : length l = S j -> nth_error l j = Some x -> Q x st s -> wp (back spec_float l) Q st s.
Proof. intros L H HQ. unfold back. eapply wp_lift; [rewrite (back_snoc l L H); reflexivity|exact HQ]. Qed.
Lemma fwp_back_snoc X (l : list X) x (Q : X -> ist -> store -> Prop) st s : Q x st s -> wp (back spec_float (l ++ [x])) Q st s.
Proof. intros H. unfold back. eapply wp_lift; [rewrite rev_app_distr; reflexivity|exact H]. Qed.

Definition start : fbiterate unknown := mk_fbiterate x0 b (fun _ => a0 A) (fun _ => a0 A) (a1 A) (a0 A) (a1 A).
Record fb_inv (k : nat) (t : nat -> fbiterate unknown) (d : nat -> fbdata unknown) (c : bicg spec_float) (st : ist) (s : store) : Prop := mk_fb_inv {
  fbi_working : working lg cs 5 (bi_pl c);
  fbi_sol : pl_sol (bi_pl c) = sols_of cs;
  fbi_rhs : pl_rhs (bi_pl c) = rhss_of cs;
  fbi_x : vector_contains lg (bi_pl c) s SOL (fb_x (t k));
  fbi_b : vector_contains lg (bi_pl c) s RHS b;
  fbi_rt : vector_contains lg (bi_pl c) s BI_RT b;
  fbi_r : vector_contains lg (bi_pl c) s BI_R (fb_r (t k));
  fbi_p : vector_contains lg (bi_pl c) s BI_P (fb_p (t k));
  fbi_v : vector_contains lg (bi_pl c) s BI_V (fb_v (t k));
  fbi_m1 : s (LFut (bi_neg1 c)) = neg1 /\ bi_neg1 c < next_fut st;
  fbi_hr : fhistory st s (bi_rho c) k (fun j => fb_rho (t j));
  fbi_ha : fhistory st s (bi_alpha c) k (fun j => fb_alpha (t j));
  fbi_ho : fhistory st s (bi_omega c) k (fun j => fb_omega (t j));
  fbi_start : t 0 = start;
  fbi_floats : floats p e U (t k);
  fbi_forms : forall j, j < k -> form (t j) (d j) (t (S j)) }.
Lemma neg1_float : is_float p e neg1.
Proof. destruct Hpe as [Hp He]. cbn [ieee aneg a1]. apply opp_float. apply normalize_float; assumption. Qed.
Lemma neg1_value : fvalue neg1 = (-1)%R.
Proof. destruct Hpe as [Hp He]. cbn [ieee aneg a1]. destruct (one_value Hp He) as [O1 O2]. destruct (opp_value _ (opp_number _ O1)) as [_ O3]. rewrite O3, O2. reflexivity. Qed.
Lemma start_floats : floats p e U start.
Proof. destruct Hpe as [Hp He]. constructor; cbn [start fb_x fb_r fb_p fb_v fb_rho fb_alpha fb_omega]; auto; try (apply normalize_float; assumption); reflexivity. Qed.

Lemma fbicg_new_inv st pl0 s : set_up lg cs st pl0 -> vectors_contain lg s (sols_of cs) x0 -> vectors_contain lg s (rhss_of cs) b ->
  wp (bicg_new A lg pl0) (fun c st' s' => exists t d, fb_inv 0 t d c st' s') st s.
Proof.
  intros Hs Hx Hb. unfold bicg_new, scalar_const.
  apply wp_bind. apply wp_scalar_task. intros s1 E1 F1.
  apply wp_bind. apply wp_scalar_task. intros s2 E2 F2.
  apply wp_bind. apply wp_scalar_task. intros s3 E3 F3.
  cbn [next next_fut] in *.
  assert (E1' : s3 (LFut (next_fut st)) = neg1) by (rewrite F3, F2 by (intros C; injection C; lia); exact E1).
  assert (E2' : s3 (LFut (S (next_fut st))) = a0 A) by (rewrite F3 by (intros C; injection C; lia); exact E2).
  apply wp_bind. apply (@wp_allocate _ lg cs _ pl0 5 _ s3); [apply (@set_up_next _ lg cs st); [cbn; lia|exact Hs]|].
  intros pl st1 Hw C3 C4 N1. cbn [next next_fut] in N1.
  assert (K : forall vs f, vectors_contain lg s vs f -> vectors_contain lg s3 vs f).
  { intros vs f H i v q Hv Hq. rewrite F3, F2, F1 by discriminate. apply (H i v q Hv Hq). }
  assert (X1 : vector_contains lg pl s3 SOL x0) by (apply sol_contains; rewrite C3; apply K; exact Hx).
  assert (B1 : vector_contains lg pl s3 RHS b) by (apply rhs_contains; rewrite C4; apply K; exact Hb).
  apply wp_bind. apply (@wpf_copy p e lg Hlg cs 5 pl Hw BI_R RHS b); [rng|rng|rng|exact B1|]. intros s4 V4 K4.
  apply wp_bind. apply (@wpf_copy p e lg Hlg cs 5 pl Hw BI_RT RHS b); [rng|rng|rng|kv|]. intros s5 V5 K5.
  apply wp_bind. apply (@wpf_zero p e lg Hlg cs 5 pl Hw BI_P); [rng|]. intros s6 V6 K6.
  apply wp_bind. apply (@wpf_zero p e lg Hlg cs 5 pl Hw BI_V); [rng|]. intros s7 V7 K7.
  apply wp_ret. exists (fun _ => start), (fun _ => mk_fbdata neg1 neg1 neg1 b neg1 b b neg1 neg1 b).
  constructor; cbn [bi_pl bi_rho bi_alpha bi_omega bi_neg1 start fb_x fb_r fb_p fb_v]; auto; try kv.
  - split; [kf|lia].
  - apply fhistory_one; [lia|]. cbn [start fb_rho]. kf.
  - apply fhistory_one; [lia|]. cbn [start fb_alpha]. kf.
  - apply fhistory_one; [lia|]. cbn [start fb_omega]. kf.
  - exact start_floats.
  - intros j Hj. lia.
Qed.

Lemma fbicg_step_inv k t d c st s : fb_inv k t d c st s -> wp (bicg_step A lg red c) (fun c' st' s' => exists t' d', fb_inv (S k) t' d' c' st' s') st s.
Proof.
  intros [Hw C3 C4 HX HB HRT HR HP HV [E1 L1] Hr Ha Ho H0 HF HJ]. unfold bicg_step. set (pl := bi_pl c) in *.
  destruct (fhistory_last Hr) as (fr & Nr & Lr & Vr). destruct (fhistory_last Ha) as (fa & Na & La & Va). destruct (fhistory_last Ho) as (fo & No & Lo & Vo).
  cbv beta in Vr, Va, Vo. set (T := t k) in *. destruct HF as [FX FR FP FV Fr Fa Fo]. assert (PE := Hpe). destruct PE as [Hp He].
  apply wp_bind. apply (@wpf_dot p e Hpe lg Hlg red Hred cs 5 pl Hw BI_R BI_RT (fb_r T) b); [exact Hn|rng|rng|exact HR|exact HRT|intros u Hu; split; auto|].
  intros frho st1 s1 A1 A2 _ V1 K1. remember (s1 (LFut frho)) as rho' eqn:Er. symmetry in Er.
  apply wp_bind. apply (@fwp_back _ (bi_rho c) k fr); [apply Hr|exact Nr|].
  apply wp_bind. unfold scalar_div, scalar_mul, scalar_neg.
  apply (@wpf_scalar lg pl). intros s2 V2 K2. cbn [map on2] in V2.
  replace (s1 (LFut frho)) with rho' in V2 by (symmetry; exact Er).
  replace (s1 (LFut fr)) with (fb_rho T) in V2 by (symmetry; kf). cbn [ieee adiv] in V2.
  apply wp_bind. apply (@fwp_back _ (bi_alpha c) k fa); [apply Ha|exact Na|].
  apply wp_bind. apply (@fwp_back _ (bi_omega c) k fo); [apply Ho|exact No|].
  apply wp_bind. apply (@wpf_scalar lg pl). intros s3 V3 K3. cbn [map on2] in V3.
  replace (s2 (LFut fa)) with (fb_alpha T) in V3 by (symmetry; kf).
  replace (s2 (LFut fo)) with (fb_omega T) in V3 by (symmetry; kf). cbn [ieee adiv] in V3.
  apply wp_bind. apply (@wpf_scalar lg pl). intros s4 V4 K4. cbn [map on2] in V4.
  set (t1 := SFdiv p e rho' (fb_rho T)) in *. set (t2 := SFdiv p e (fb_alpha T) (fb_omega T)) in *.
  replace (s3 (LFut (next_fut st1))) with t1 in V4 by (symmetry; kf).
  rewrite V3 in V4. cbn [ieee amul] in V4. set (beta := SFmul p e t1 t2) in *.
  apply wp_bind. apply (@wpf_scalar lg pl). intros s5 V5 K5. cbn [map on1] in V5.
  replace (s4 (LFut fo)) with (fb_omega T) in V5 by (symmetry; kf). cbn [ieee aneg] in V5.
  assert (Frho' : is_float p e rho') by apply V1.
  assert (Fbeta : is_float p e beta) by (apply mul_float; auto; apply div_float; auto).
  apply wp_bind. apply (@wpf_axpy p e lg Hlg cs 5 pl Hw BI_P [next_fut (next (next (next st1)))] BI_V (SFopp (fb_omega T)) (fb_v T) (fb_p T));
    [rng|rng|rng|rng|kv|kv|exact V5|]. intros s6 V6 K6.
  set (p1 := fun u => sf_fma p e (SFopp (fb_omega T)) (fb_v T u) (fb_p T u)) in *.
  assert (Fp1 : forall u, In u U -> is_float p e (p1 u)) by (intros u Hu; unfold p1; apply fma_float; auto; apply opp_float; assumption).
  apply wp_bind. apply (@wpf_xpay p e lg Hlg cs 5 pl Hw BI_P [next_fut (next (next st1))] BI_R beta (fb_r T) p1);
    [rng|rng|rng|rng|kv|kv|change (s6 (LFut (next_fut (next (next st1)))) = beta); kf|]. intros s7 V7 K7.
  set (pn := fun u => sf_fma p e beta (p1 u) (fb_r T u)) in *.
  assert (Fpn : forall u, In u U -> is_float p e (pn u)) by (intros u Hu; unfold pn; apply fma_float; auto).
  apply wp_bind. apply (@wpf_matvec p e Hpe lg Hlg cs Hdom Hfe 5 pl Hw BI_V BI_P pn); [rng|rng|rng|exact V7|exact Fpn|]. intros s8 vn V8 M8 K8.
  apply wp_bind. apply (@wpf_dot p e Hpe lg Hlg red Hred cs 5 pl Hw BI_RT BI_V b vn); [exact Hn|rng|rng|kv|exact V8|intros u Hu; split; [auto|apply (M8 u Hu)]|].
  intros ft st9 s9 A3 A4 _ V9 K9. cbn [next next_fut] in A3. remember (s9 (LFut ft)) as sigma eqn:Es. symmetry in Es.
  apply wp_bind. apply fwp_back_snoc.
  assert (Vrho9 : s9 (LFut frho) = rho') by kf.
  assert (Vneg9 : s9 (LFut (bi_neg1 c)) = neg1) by kf.
  set (na := SFdiv p e (SFmul p e neg1 rho') sigma) in *.
  apply wp_bind. apply (@wpf_axpy p e lg Hlg cs 5 pl Hw BI_R [bi_neg1 c; frho; ft] BI_V na vn (fb_r T));
    [rng|rng|rng|rng|kv|kv|unfold alpha_of, fut; cbn [map get_alpha]; rewrite Vneg9, Vrho9, Es; reflexivity|]. intros s10 V10 K10.
  set (sn := fun u => sf_fma p e na (vn u) (fb_r T u)) in *.
  assert (Fna : is_float p e na) by (apply div_float; auto; [apply mul_float; auto; apply neg1_float|apply V9]).
  assert (Fsn : forall u, In u U -> is_float p e (sn u)) by (intros u Hu; unfold sn; apply fma_float; auto; apply (M8 u Hu)).
  apply wp_bind. apply (@wpf_scalar lg pl). intros s11 V11 K11. cbn [map on2] in V11.
  replace (s10 (LFut frho)) with rho' in V11 by (symmetry; kf).
  replace (s10 (LFut ft)) with sigma in V11 by (symmetry; kf). cbn [ieee adiv] in V11.
  set (al := SFdiv p e rho' sigma) in *.
  apply wp_bind. apply (@wpf_matvec p e Hpe lg Hlg cs Hdom Hfe 5 pl Hw BI_U BI_R sn); [rng|rng|rng|kv|exact Fsn|]. intros s12 un V12 M12 K12.
  apply wp_bind. apply (@wpf_dot p e Hpe lg Hlg red Hred cs 5 pl Hw BI_R BI_U sn un); [exact Hn|rng|rng|kv|exact V12|intros u Hu; split; [auto|apply (M12 u Hu)]|].
  intros fn st13 s13 A5 A6 _ V13 K13. cbn [next next_fut] in A5. remember (s13 (LFut fn)) as tau eqn:Et. symmetry in Et.
  apply wp_bind. apply (@wpf_dot p e Hpe lg Hlg red Hred cs 5 pl Hw BI_U BI_U un un); [exact Hn|rng|rng|kv|kv|intros u Hu; split; apply (M12 u Hu)|].
  intros fd st14 s14 A7 A8 _ V14 K14. remember (s14 (LFut fd)) as nu eqn:Ev. symmetry in Ev.
  apply wp_bind. apply (@wpf_scalar lg pl). intros s15 V15 K15. cbn [map on2] in V15.
  replace (s14 (LFut fn)) with tau in V15 by (symmetry; kf). rewrite Ev in V15. cbn [ieee adiv] in V15.
  set (om := SFdiv p e tau nu) in *.
  apply wp_bind. apply fwp_back_snoc.
  apply wp_bind. apply (@wpf_axpy p e lg Hlg cs 5 pl Hw SOL [next_fut st9] BI_P al pn (fb_x T));
    [rng|rng|rng|rng|kv|kv|change (s15 (LFut (next_fut st9)) = al); kf|]. intros s16 V16 K16.
  set (x1 := fun u => sf_fma p e al (pn u) (fb_x T u)) in *.
  apply wp_bind. apply fwp_back_snoc.
  apply wp_bind. apply (@wpf_axpy p e lg Hlg cs 5 pl Hw SOL [next_fut st14] BI_R om sn x1);
    [rng|rng|rng|rng|kv|kv|change (s16 (LFut (next_fut st14)) = om); kf|]. intros s17 V17 K17.
  set (xn := fun u => sf_fma p e om (sn u) (x1 u)) in *.
  apply wp_bind. apply (@wpf_scalar lg pl). intros s18 V18 K18. cbn [map on1] in V18.
  replace (s17 (LFut (next_fut st14))) with om in V18 by (symmetry; kf). cbn [ieee aneg] in V18.
  apply wp_bind. apply (@wpf_axpy p e lg Hlg cs 5 pl Hw BI_R [next_fut (next st14)] BI_U (SFopp om) un sn);
    [rng|rng|rng|rng|kv|kv|exact V18|]. intros s19 V19 K19.
  set (rn := fun u => sf_fma p e (SFopp om) (un u) (sn u)) in *.
  cbn [next next_fut] in *.
  assert (KF : forall d, d < next_fut st -> s19 (LFut d) = s (LFut d)).
  { intros j Hj. assert (Q0 : s (LFut j) = s (LFut j)) by reflexivity. kf. }
  set (T' := mk_fbiterate xn rn pn vn rho' al om). set (D := mk_fbdata t1 t2 beta p1 sigma sn un tau nu x1).
  set (t' := fun j => if j <=? k then t j else T'). set (d' := fun j => if j <? k then d j else D).
  assert (Ett : forall j, j <= k -> t' j = t j) by (intros j Hj; unfold t'; rewrite (proj2 (Nat.leb_le j k) Hj); reflexivity).
  assert (Ess : t' (S k) = T') by (unfold t'; rewrite (proj2 (Nat.leb_gt (S k) k) ltac:(lia)); reflexivity).
  assert (BF : form T D T').
  { constructor; cbn [T' D fb_x fb_r fb_p fb_v fb_rho fb_alpha fb_omega fb_t1 fb_t2 fb_beta fb_p1 fb_sigma fb_s fb_t fb_tau fb_nu fb_x1]; auto; reflexivity. }
  assert (FT' : floats p e U T') by (eapply bform_floats; [exact Hpe|apply neg1_float| |exact BF]; constructor; assumption).
  apply wp_ret. exists t', d'. constructor; cbn [bi_pl bi_rho bi_alpha bi_omega bi_neg1]; rewrite ?Ess; cbn [T' fb_x fb_r fb_p fb_v]; auto; try kv.
  - split; [kf|cbn [next next_fut] in *; lia].
  - eapply fhistory_push; [exact Hr|cbn [next next_fut] in *; lia|exact KF|cbn [next next_fut] in *; lia|intros j Hj; cbv beta; rewrite (Ett j Hj); reflexivity|]. cbv beta. rewrite Ess. cbn [T' fb_rho]. kf.
  - eapply fhistory_push; [exact Ha|cbn [next next_fut] in *; lia|exact KF|cbn [next next_fut] in *; lia|intros j Hj; cbv beta; rewrite (Ett j Hj); reflexivity|]. cbv beta. rewrite Ess. cbn [T' fb_alpha]. kf.
  - eapply fhistory_push; [exact Ho|cbn [next next_fut] in *; lia|exact KF|cbn [next next_fut] in *; lia|intros j Hj; cbv beta; rewrite (Ett j Hj); reflexivity|]. cbv beta. rewrite Ess. cbn [T' fb_omega]. kf.
  - intros j Hj. rewrite (Ett j) by lia. destruct (Nat.eq_dec j k) as [-> |Ne].
    + rewrite Ess. unfold d'. rewrite Nat.ltb_irrefl. exact BF.
    + rewrite (Ett (S j)) by lia. unfold d'. rewrite (proj2 (Nat.ltb_lt j k)) by lia. apply HJ. lia.
Qed.
Lemma fbicg_run_inv st pl0 s k : set_up lg cs st pl0 -> vectors_contain lg s (sols_of cs) x0 -> vectors_contain lg s (rhss_of cs) b ->
  wp (bicg_run A lg red pl0 k) (fun c st' s' => exists t d, fb_inv k t d c st' s') st s.
Proof.
  intros Hs Hx Hb. unfold bicg_run. apply wp_bind. eapply wp_conseq; [apply fbicg_new_inv; eassumption|]. intros c st' s' H.
  induction k as [|k IH]; cbn [bicg_steps]; [apply wp_ret; exact H|]. apply wp_bind. eapply wp_conseq; [exact IH|]. intros c' st1 s1 (t & d & H'). apply (fbicg_step_inv H').
Qed.
End Run.

(** ** C76.  BiCGStab in an IEEE format is the BiCGStab iteration up to one rounding per entry and the usual errors of
    sums, as long as the solution and the residual contain no infinity or NaN. *)
Lemma finite_entries lg cs nw (pl : planner spec_float) s s1 vi f : working lg cs nw pl -> vi < 2 + nw -> (forall l, s l = s1 l) -> vector_contains lg pl s1 vi f -> finite_vector_of lg pl s vi ->
  forall u, In u (unknowns lg cs) -> is_number (f u).
Proof.
  intros Hw Hv E H HF [i q] Hu. apply (in_unknowns_pts Hw) in Hu. destruct Hu as [Hi Hq].
  assert (Hc : component pl vi i (vec pl vi i)) by (apply (component_iff Hw); auto).
  assert (Hq' : In q (is_points lg (pv_space (vec pl vi i)))) by (rewrite (component_points Hw Hv Hc); exact Hq).
  rewrite <- (H i _ q Hc Hq'), <- E. apply (HF i _ q Hc Hq').
Qed.
Theorem C76_float_bicgstab_run : forall (p e : Z) lg red (cs : list (setup_call spec_float)) st pl0 s x0 b k,
  format p e -> legion_ok lg -> legal_reduction (ieee p e) red -> set_up lg cs st pl0 -> float_entries p e cs -> unknowns lg cs <> [] ->
  vectors_contain lg s (sols_of cs) x0 -> vectors_contain lg s (rhss_of cs) b ->
  (forall u, In u (unknowns lg cs) -> is_float p e (x0 u) /\ is_float p e (b u)) ->
  accepted (bicg_run (ieee p e) lg red pl0 k) st /\
  forall c st' s', ends (bicg_run (ieee p e) lg red pl0 k) st s c st' s' ->
    vectors_contain lg s' (rhss_of cs) b /\ vector_contains lg (bi_pl c) s' BI_RT b /\
    length (bi_rho c) = S k /\ length (bi_alpha c) = S k /\ length (bi_omega c) = S k /\
    (finite_vectors lg s' (sols_of cs) -> finite_vector_of lg (bi_pl c) s' BI_R ->
     exists t d, float_bicg p e (unknowns lg cs) (coefficient_of fvalue cs) (coefficient_of (fun x => Rabs (fvalue x)) cs) (entry_count lg cs) b x0 k t d /\
       vectors_contain lg s' (sols_of cs) (fb_x (t k)) /\ vector_contains lg (bi_pl c) s' BI_R (fb_r (t k)) /\
       vector_contains lg (bi_pl c) s' BI_P (fb_p (t k)) /\ vector_contains lg (bi_pl c) s' BI_V (fb_v (t k)) /\
       (forall j f, nth_error (bi_rho c) j = Some f -> s' (LFut f) = fb_rho (t j)) /\
       (forall j f, nth_error (bi_alpha c) j = Some f -> s' (LFut f) = fb_alpha (t j)) /\
       (forall j f, nth_error (bi_omega c) j = Some f -> s' (LFut f) = fb_omega (t j))).
Proof.
  intros p e lg red cs st pl0 s x0 b k Hpe Hlg Hred Hs Hfe Hne Hx Hb Hf.
  destruct (unknowns lg cs) as [|u0 us] eqn:Eus; [contradiction|]. rewrite <- Eus in *. assert (Hu0 : In u0 (unknowns lg cs)) by (rewrite Eus; left; reflexivity).
  assert (Hn : 0 < length (sols_of cs)) by (destruct u0 as [i q]; apply in_unknowns in Hu0; lia).
  assert (Hdom : forall m d r, In (m, d, r) (mats_of cs) -> d < length (sols_of cs)).
  { intros m d r Hin. assert (W : wp (allocate_workspace lg pl0 5) (fun pl _ _ => working lg cs 5 pl) st s) by (apply (@wp_allocate _ lg cs st pl0 5 _ s Hs); auto).
    destruct W as (pl & lns & st1 & _ & _ & Hw). apply (mats_domain Hw m d r Hin). }
  assert (W := @fbicg_run_inv p e Hpe lg Hlg red Hred cs Hdom Hfe Hn x0 b (fun u Hu => proj1 (Hf u Hu)) (fun u Hu => proj2 (Hf u Hu)) st pl0 s k Hs Hx Hb).
  split; [eapply wp_accepted; exact W|]. intros c st' s' He. destruct (wp_ends W He) as [s1 [(t & d & [Hw C3 C4 HX HB HRT HR HP HV _ [L1 N1] [L2 N2] [L3 N3] H0 HF HJ]) E]].
  assert (VE : forall vi f, vector_contains lg (bi_pl c) s1 vi f -> vector_contains lg (bi_pl c) s' vi f) by (intros vi f; exact (@vector_contains_eq _ lg (bi_pl c) s1 s' _ _ E)).
  split; [rewrite <- C4; apply (proj1 (@rhs_contains _ lg (bi_pl c) s' _)); apply VE; exact HB|]. split; [apply VE; exact HRT|].
  split; [exact L1|]. split; [exact L2|]. split; [exact L3|]. intros NS NR. exists t, d.
  assert (NX : finite_xr (unknowns lg cs) (t k)).
  { intros u Hu. split; [refine (@finite_entries lg cs 5 (bi_pl c) s' s1 SOL _ Hw _ E HX _ u Hu)|refine (@finite_entries lg cs 5 (bi_pl c) s' s1 BI_R _ Hw _ E HR NR u Hu)]; [rng| |rng].
    intros i v q Hc Hq. apply NS; [|exact Hq]. unfold component, get_vector, vector_row, SOL in Hc. cbn [obind] in Hc. rewrite C3 in Hc.
    destruct (nth_error (sols_of cs) i) eqn:Ei; [|discriminate]. injection Hc as ->. eapply nth_error_In; exact Ei. }
  destruct Hpe as [Hp He']. destruct (one_value Hp He') as [O1 O2].
  destruct (@bform_run p e (conj Hp He') unknown (unknowns lg cs) (coefficient_of fvalue cs) (coefficient_of (fun x => Rabs (fvalue x)) cs) (entry_count lg cs) u0 Hu0 b _ (neg1_float (conj Hp He')) (neg1_value (conj Hp He')) k t d) as (_ & _ & ST); auto.
  { rewrite H0. apply start_floats; [split; assumption| |]; intros u Hu; apply (Hf u Hu). }
  { rewrite H0. exact O1. }
  split. { split; [|exact ST]. rewrite H0. constructor; cbn [start fb_x fb_r fb_p fb_v fb_rho fb_alpha fb_omega ieee a0 a1]; auto; intros; split; reflexivity. }
  split; [rewrite <- C3; apply (proj1 (@sol_contains _ lg (bi_pl c) s' _)); apply VE; exact HX|].
  split; [apply VE; exact HR|]. split; [apply VE; exact HP|]. split; [apply VE; exact HV|].
  split; [intros j f Hj; rewrite E; apply (N1 j f Hj)|]. split; intros j f Hj; rewrite E; [apply (N2 j f Hj)|apply (N3 j f Hj)].
Qed.

(** The residual vector the solver iterates on is the true residual b - A (x - x0) up to the accumulated rounding errors. *)
Theorem C76_residual_gap : forall (p e : Z) lg red (cs : list (setup_call spec_float)) st pl0 s x0 b k c st' s',
  format p e -> legion_ok lg -> legal_reduction (ieee p e) red -> set_up lg cs st pl0 -> float_entries p e cs -> unknowns lg cs <> [] ->
  vectors_contain lg s (sols_of cs) x0 -> vectors_contain lg s (rhss_of cs) b ->
  (forall u, In u (unknowns lg cs) -> is_float p e (x0 u) /\ is_float p e (b u)) ->
  ends (bicg_run (ieee p e) lg red pl0 k) st s c st' s' ->
  finite_vectors lg s' (sols_of cs) -> finite_vector_of lg (bi_pl c) s' BI_R ->
  let us := unknowns lg cs in
  let a := coefficient_of fvalue cs in
  let mag := coefficient_of (fun x => Rabs (fvalue x)) cs in
  exists (x r : unknown -> spec_float) t d,
    vectors_contain lg s' (sols_of cs) x /\ vector_contains lg (bi_pl c) s' BI_R r /\
    float_bicg p e us a mag (entry_count lg cs) b x0 k t d /\
    forall u, In u us ->
      (Rabs ((fvalue (b u) - apply_op us a (fun w => fvalue (x w) - fvalue (x0 w)) u) - fvalue (r u)) <=
       Rsum (fun j => bdrift p e us a mag (entry_count lg cs) (t j) (d j) (t (S j)) u) (seq 0 k))%R.
Proof.
  intros p e lg red cs st pl0 s x0 b k c st' s' Hpe Hlg Hred Hs Hfe Hne Hx Hb Hf He NS NR us a mag.
  destruct (@C76_float_bicgstab_run p e lg red cs st pl0 s x0 b k Hpe Hlg Hred Hs Hfe Hne Hx Hb Hf) as [_ H].
  destruct (H c st' s' He) as (_ & _ & _ & _ & _ & H'). destruct (H' NS NR) as (t & d & T1 & T2 & T3 & _). clear H H'.
  exists (fb_x (t k)), (fb_r (t k)), t, d. split; [exact T2|]. split; [exact T3|]. split; [exact T1|]. intros u Hu.
  pose proof (bgap_run _ T1 Hu) as G. unfold bgap in G. change (fun w => (fvalue (fb_x (t k) w) - fvalue (x0 w))%R) with (vsub (fun w => fvalue (fb_x (t k) w)) (fun w => fvalue (x0 w))).
  change (apply_op us a) with (app_op us a). rewrite app_sub. fold us a in G. match goal with |- (Rabs ?z <= _)%R => match type of G with (Rabs ?w <= _)%R => replace z with w by ring end end. exact G.
Qed.

(** *** A concrete run in double: diag(1, 3), b = (1, 1), x0 = 0, two steps *)
Example C76_example : let A := ieee 53 1024 in let red := left_sum A in
  format 53 1024 /\ legion_ok lg2 /\ legal_reduction A red /\ set_up lg2 diag64_calls ex_st diag64_planner /\ float_entries 53 1024 diag64_calls /\ unknowns lg2 diag64_calls <> [] /\
  vectors_contain lg2 ones64 (sols_of diag64_calls) (fun _ => f64_zero) /\ vectors_contain lg2 ones64 (rhss_of diag64_calls) (fun _ => f64_of_Z 1) /\
  (forall u, In u (unknowns lg2 diag64_calls) -> is_float 53 1024 f64_zero /\ is_float 53 1024 (f64_of_Z 1)) /\
  forall c st' s', ends (bicg_run A lg2 red diag64_planner 2) ex_st ones64 c st' s' ->
    finite_vectors lg2 s' (sols_of diag64_calls) /\ finite_vector_of lg2 (bi_pl c) s' BI_R /\
    (* the solution: 1 and the double nearest to 1/3 *)
    s' (at_point (v2 3 10) [0]%Z) = f64_of_Z 1 /\ s' (at_point (v2 3 10) [1]%Z) = S754_finite false 6004799503160661 (-54).
Proof.
  intros A red. assert (Hs : set_up lg2 diag64_calls ex_st diag64_planner) by (split; [exact diag64_well_formed|reflexivity]).
  assert (Hr : legal_reduction A red) by (apply fold_left_legal).
  destruct C68_example as (_ & _ & _ & _ & Hf & _ & Hx & Hb & HF & _).
  split; [exact double_format_ok|]. split; [exact lg2_ok|]. split; [exact Hr|]. split; [exact Hs|]. split; [exact Hf|]. split; [discriminate|]. split; [exact Hx|]. split; [exact Hb|]. split; [exact HF|].
  intros c st' s' He.
  assert (Hdom : forall m d r, In (m, d, r) (mats_of diag64_calls) -> d < length (sols_of diag64_calls)) by (intros m d r H; cbn in H; destruct H as [E|[]]; injection E as <- <- <-; cbn; lia).
  assert (Hn : 0 < length (sols_of diag64_calls)) by (cbn; lia).
  assert (W := @fbicg_run_inv 53 1024 double_format_ok lg2 lg2_ok red Hr diag64_calls Hdom Hf Hn _ _ (fun u Hu => proj1 (HF u Hu)) (fun u Hu => proj2 (HF u Hu)) ex_st diag64_planner ones64 2 Hs Hx Hb).
  destruct W as (c0 & lns & st0 & E1 & G & t & d & I). destruct He as (lns1 & E2 & L). assert (E3 := eq_trans (eq_sym E1) E2). injection E3 as <- <- <-. clear E2.
  assert (D : forall l, s' l = effect lns ones64 l) by (apply launches_end_effect; assumption).
  assert (S : match bicg_run A lg2 red diag64_planner 2 ex_st with Ok (c, lns, _) =>
      map (fun q => effect lns ones64 (at_point (v2 3 10) q)) [[0];[1]]%Z = [f64_of_Z 1; S754_finite false 6004799503160661 (-54)] /\
      map (fun q => entry (bi_pl c) (effect lns ones64) BI_R (0, q)) [[0];[1]]%Z = [S754_finite true 5348604918279187 (-109); S754_finite false 4754315482914831 (-110)]
    | _ => False end) by (vm_compute; split; reflexivity).
  unfold A in S. change (ieee 53 1024) with A in E1. unfold A in E1. rewrite E1 in S. destruct S as [S1 S2]. cbn [map] in S1, S2. injection S1 as X0 X1. injection S2 as P0 P1.
  assert (Hw := fbi_working I).
  split; [|split; [|split; rewrite D; assumption]].
  - intros v q Hv Hq. destruct Hv as [<-|[]]. rewrite D. cbn in Hq. destruct Hq as [<-|[<-|[]]]; [rewrite X0|rewrite X1]; exact Logic.I.
  - intros i v q Hc Hq. assert (Lv : BI_R < 2 + 5) by rng. rewrite (component_points Hw Lv Hc) in Hq. apply (component_iff Hw) in Hc; [|exact Lv]. destruct Hc as [Hi ->].
    assert (Hu : In (i, q) (unknowns lg2 diag64_calls)) by (apply (in_unknowns_pts Hw); auto). rewrite D. change (is_number (entry (bi_pl c0) (effect lns ones64) BI_R (i, q))).
    cbn in Hu. destruct Hu as [Hu|[Hu|[]]]; injection Hu as <- <-; [rewrite P0|rewrite P1]; exact Logic.I.
Qed.
