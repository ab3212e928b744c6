(** PropsFloatCG: properties C68 and C69 (conjugate gradients in float and double). *)
From Coq Require Import Reals Lra Lia ZArith.
From Coq Require Import Floats.SpecFloat.
From Verif Require Import Base Index Outcome Sched Async Arith Launch Vector PartitionSpec VectorFacts LaunchFacts Matrix MatrixSpec MatrixFacts
  MatvecFacts Builder BuilderFacts Exec ExactSum LinAlg Planner PlannerFacts PlannerSetup Solvers PropsVector PropsMatrix PropsPlanner PropsSolver SolverFacts PropsCG PropsCGConv
  Float FloatSum PropsFloat FloatPlanner FloatCGSpec.
Set Implicit Arguments.
Local Open Scope R_scope.

(** ** One step, as formulas *)
Section Step.
Variables p e : Z.
Hypothesis Hpe : format p e.
Lemma rounded_fma c x y t : is_float p e c -> is_float p e x -> is_float p e y -> is_number (sf_fma p e c x y) -> t = fvalue y + fvalue c * fvalue x -> rounded p e t (sf_fma p e c x y).
Proof.
  destruct Hpe as [Hp He]. intros Fc Fx Fy Hn ->. split; [apply fma_float; assumption|]. split; [exact Hn|]. destruct (fma_value Hp He Fc Fx Fy Hn) as (_ & _ & _ & E). rewrite E, Rplus_comm. apply rnd_error; assumption.
Qed.
Lemma summed_of_approx I (l : list I) (f : I -> R) x : approx p e False (map f l) x -> is_number x -> summed p e l f x.
Proof. intros (F & E & _) Hn. split; [exact F|]. split; [exact Hn|]. specialize (E Hn). rewrite map_length, !Rsum_map_id in E. exact E. Qed.
Variable P : Type.
Variable U : list P.
Variable a mag : P -> P -> R.
Variable count : P -> nat.
Variable u0 : P.
Hypothesis Hu0 : In u0 U.
Variables X Rv Pv Q X' R' P' : P -> spec_float.
Variables rho sigma rho' neg1 : spec_float.
Hypothesis Fn : is_float p e neg1.
Hypothesis En : fvalue neg1 = -1.
Hypothesis FX : forall u, In u U -> is_float p e (X u).
Hypothesis FR : forall u, In u U -> is_float p e (Rv u).
Hypothesis FP : forall u, In u U -> is_float p e (Pv u).
Hypothesis Frho : is_float p e rho.
Hypothesis HQ : forall u, In u U -> is_float p e (Q u) /\ (is_number (Q u) -> Rabs (fvalue (Q u) - app_op U a (fun w => fvalue (Pv w)) u) <= sum_error p e (count u) (app_op U mag (fun w => Rabs (fvalue (Pv w))) u)).
Hypothesis Hsigma : approx p e False (map (fun u => fvalue (Pv u) * fvalue (Q u)) U) sigma.
Hypothesis HX' : forall u, In u U -> X' u = sf_fma p e (SFdiv p e rho sigma) (Pv u) (X u).
Hypothesis HR' : forall u, In u U -> R' u = sf_fma p e (SFdiv p e (SFmul p e neg1 rho) sigma) (Q u) (Rv u).
Hypothesis Hrho' : approx p e False (map (fun u => fvalue (R' u) * fvalue (R' u)) U) rho'.
Hypothesis HP' : forall u, In u U -> P' u = sf_fma p e (SFdiv p e rho' rho) (Pv u) (R' u).
Lemma step_floats : forall u, In u U -> is_float p e (X' u) /\ is_float p e (R' u) /\ is_float p e (P' u).
Proof.
  destruct Hpe as [Hp He]. intros u Hu. assert (Fr : is_float p e (R' u)). { rewrite (HR' u Hu). apply fma_float; try assumption; [|apply HQ; exact Hu|apply FR; exact Hu]. apply div_float; try assumption; [apply mul_float; assumption|apply Hsigma]. }
  split; [|split; [exact Fr|]].
  - rewrite (HX' u Hu). apply fma_float; try assumption; [|apply FP; exact Hu|apply FX; exact Hu]. apply div_float; try assumption. apply Hsigma.
  - rewrite (HP' u Hu). apply fma_float; try assumption; [|apply FP; exact Hu]. apply div_float; try assumption. apply Hrho'.
Qed.
Lemma step_numbers : (forall u, In u U -> is_number (X' u)) -> (forall u, In u U -> is_number (P' u)) ->
  (forall u, In u U -> is_number (X u) /\ is_number (Pv u) /\ is_number (Q u) /\ is_number (Rv u) /\ is_number (R' u)) /\
  is_number (SFdiv p e rho sigma) /\ is_number (SFdiv p e (SFmul p e neg1 rho) sigma) /\ is_number (SFdiv p e rho' rho) /\ is_number rho /\ is_number rho'.
Proof.
  destruct Hpe as [Hp He]. intros NX NP.
  assert (Fs : is_float p e sigma) by apply Hsigma. assert (Fr' : is_float p e rho') by apply Hrho'.
  assert (Fa : is_float p e (SFdiv p e rho sigma)) by (apply div_float; assumption). assert (Fb : is_float p e (SFdiv p e rho' rho)) by (apply div_float; assumption).
  assert (Fc : is_float p e (SFdiv p e (SFmul p e neg1 rho) sigma)) by (apply div_float; try assumption; apply mul_float; assumption).
  assert (G : forall u, In u U -> (is_number (X u) /\ is_number (Pv u) /\ is_number (Q u) /\ is_number (Rv u) /\ is_number (R' u)) /\
     is_number (SFdiv p e rho sigma) /\ is_number (SFdiv p e (SFmul p e neg1 rho) sigma) /\ is_number (SFdiv p e rho' rho)).
  { intros u Hu. pose proof (NX u Hu) as N1. rewrite (HX' u Hu) in N1. destruct (fma_value Hp He Fa (FP u Hu) (FX u Hu) N1) as (A1 & A2 & A3 & _).
    pose proof (NP u Hu) as N2. rewrite (HP' u Hu) in N2. destruct (step_floats u Hu) as (_ & FR' & _). destruct (fma_value Hp He Fb (FP u Hu) FR' N2) as (B1 & _ & B3 & _).
    pose proof B3 as N3. rewrite (HR' u Hu) in N3. destruct (fma_value Hp He Fc (proj1 (HQ u Hu)) (FR u Hu) N3) as (C1 & C2 & C3 & _). tauto. }
  split; [intros u Hu; apply (G u Hu)|]. destruct (G u0 Hu0) as (_ & G1 & G2 & G3). split; [exact G1|]. split; [exact G2|]. split; [exact G3|].
  split; [apply (div_cases Hp He Frho Fs G1)|apply (div_cases Hp He Fr' Frho G3)].
Qed.
Lemma step_fstep : (forall u, In u U -> is_number (X' u)) -> (forall u, In u U -> is_number (P' u)) ->
  fstep p e U a mag count (mk_fiterate X Rv Pv rho) (mk_fdata Q sigma (fvalue (SFdiv p e rho sigma)) (SFdiv p e rho' rho)) (mk_fiterate X' R' P' rho').
Proof.
  destruct Hpe as [Hp He]. intros NX NP. destruct (step_numbers NX NP) as (G & G1 & G2 & G3 & Nr & Nr').
  assert (Fs : is_float p e sigma) by apply Hsigma. assert (Fr' : is_float p e rho') by apply Hrho'.
  assert (Fa : is_float p e (SFdiv p e rho sigma)) by (apply div_float; assumption). assert (Fb : is_float p e (SFdiv p e rho' rho)) by (apply div_float; assumption).
  assert (Fc : is_float p e (SFdiv p e (SFmul p e neg1 rho) sigma)) by (apply div_float; try assumption; apply mul_float; assumption).
  pose proof (div_negated Hp He Fn En Frho Fs G1 G2) as Ec.
  constructor; cbn [f_x f_r f_p f_rho f_q f_sigma f_alpha f_beta].
  - intros u Hu. destruct (HQ u Hu) as [H1 H2]. assert (Nq : is_number (Q u)) by apply (G u Hu). split; [exact H1|]. split; [exact Nq|]. exact (H2 Nq).
  - exact Nr.
  - destruct (div_cases Hp He Frho Fs G1) as [_ [(A1 & A2 & A3)|(A1 & A2)]]; [left|right].
    + split; [apply summed_of_approx; assumption|]. split; [exact A2|]. exists (SFdiv p e rho sigma). split; [|reflexivity]. split; [exact Fa|]. split; [exact G1|]. rewrite A3. apply rnd_error; assumption.
    + split; assumption.
  - intros u Hu. rewrite (HX' u Hu). apply rounded_fma; [exact Fa|apply FP; exact Hu|apply FX; exact Hu| |reflexivity]. rewrite <- (HX' u Hu). apply NX. exact Hu.
  - intros u Hu. rewrite (HR' u Hu). apply rounded_fma; [exact Fc|apply HQ; exact Hu|apply FR; exact Hu| |rewrite Ec; ring]. rewrite <- (HR' u Hu). apply (G u Hu).
  - apply summed_of_approx; [exact Hrho'|exact Nr'].
  - destruct (div_cases Hp He Fr' Frho G3) as [_ [(A1 & A2 & A3)|(A1 & A2)]]; [|contradiction]. split; [exact A2|]. split; [exact Fb|]. split; [exact G3|]. rewrite A3. apply rnd_error; assumption.
  - intros u Hu. rewrite (HP' u Hu). apply rounded_fma; [exact Fb|apply FP; exact Hu|apply (step_floats u Hu)| |reflexivity]. rewrite <- (HP' u Hu). apply NP. exact Hu.
Qed.
End Step.

(** ** The residual gap *)
Section Gap.
Variables p e : Z.
Variable P : Type.
Variable U : list P.
Variable a mag : P -> P -> R.
Variable count : P -> nat.
Lemma Rsum_abs_le {I} (f : I -> R) (g : I -> R) l : (forall i, In i l -> Rabs (f i) <= g i) -> Rabs (Rsum f l) <= Rsum g l.
Proof.
  induction l as [|i l IH]; intros H; rewrite ?Rsum_nil, ?Rsum_cons; [rewrite Rabs_R0; lra|]. eapply Rle_trans; [apply Rabs_triang|]. apply Rplus_le_compat; [apply H; left; reflexivity|apply IH; intros j Hj; apply H; right; exact Hj].
Qed.
Lemma gap_step b t d t' u : fstep p e U a mag count t d t' -> In u U -> Rabs (gap U a b t' u - gap U a b t u) <= drift p e U a mag count t d u.
Proof.
  intros [SQ _ _ SX SR _ _ _] Hu. unfold gap, drift. destruct (SQ u Hu) as (_ & _ & B1). destruct (SR u Hu) as (_ & _ & B2).
  set (al := f_alpha d) in *.
  assert (EX : app_op U a (fun w => fvalue (f_x t' w)) u - app_op U a (fun w => fvalue (f_x t w)) u - al * app_op U a (fun w => fvalue (f_p t w)) u =
     Rsum (fun w => a u w * (fvalue (f_x t' w) - (fvalue (f_x t w) + al * fvalue (f_p t w)))) U).
  { unfold app_op. rewrite <- Rsum_scal. match goal with |- ?A - ?B - ?C = _ => replace (A - B - C) with (A + (-1) * B + (-1) * C) by ring end. rewrite <- !Rsum_scal, <- !Rsum_plus. apply Rsum_ext. intros w _. ring. }
  assert (BX : Rabs (Rsum (fun w => a u w * (fvalue (f_x t' w) - (fvalue (f_x t w) + al * fvalue (f_p t w)))) U) <= Rsum (fun w => Rabs (a u w) * (unit_roundoff p * Rabs (fvalue (f_x t w) + al * fvalue (f_p t w)) + tiny p e)) U).
  { apply Rsum_abs_le. intros w Hw. rewrite Rabs_mult. apply Rmult_le_compat_l; [apply Rabs_pos|]. apply (SX w Hw). }
  rewrite <- EX in BX. clear EX. set (AX' := app_op U a (fun w => fvalue (f_x t' w)) u) in *. set (AX := app_op U a (fun w => fvalue (f_x t w)) u) in *. set (AP := app_op U a (fun w => fvalue (f_p t w)) u) in *.
  set (DX := Rsum _ U) in *. set (DQ := sum_error _ _ _ _) in *.
  replace (fvalue (b u) - AX' - fvalue (f_r t' u) - (fvalue (b u) - AX - fvalue (f_r t u))) with
    (- (AX' - AX - al * AP) + al * (fvalue (f_q d u) - AP) + - (fvalue (f_r t' u) - (fvalue (f_r t u) - al * fvalue (f_q d u)))) by ring.
  eapply Rle_trans; [apply Rabs_triang|]. apply Rplus_le_compat; [|rewrite Rabs_Ropp; exact B2]. eapply Rle_trans; [apply Rabs_triang|]. rewrite Rabs_Ropp, Rabs_mult.
  apply Rplus_le_compat; [exact BX|]. apply Rmult_le_compat_l; [apply Rabs_pos|exact B1].
Qed.
Lemma gap_run x0 b k t d u : float_cg p e U a mag count x0 b k t d -> In u U ->
  Rabs (gap U a b (t k) u + app_op U a (fun w => fvalue (x0 w)) u) <= Rsum (fun j => drift p e U a mag count (t j) (d j) u) (seq 0 k).
Proof.
  intros [[S1 S2 S3 _] H] Hu. induction k as [|k IH].
  - cbn [seq]. rewrite Rsum_nil. unfold gap. rewrite (S2 u Hu). rewrite (@app_ext _ U a (fun w => fvalue (f_x (t 0%nat) w)) (fun w => fvalue (x0 w)) u) by (intros w Hw; rewrite (S1 w Hw); reflexivity).
    match goal with |- Rabs ?z <= 0 => replace z with 0 by ring end. rewrite Rabs_R0. lra.
  - rewrite seq_S, Rsum_app, Rsum_cons, Rsum_nil, Rplus_0_r, Nat.add_0_l.
    replace (gap U a b (t (S k)) u + app_op U a (fun w => fvalue (x0 w)) u) with ((gap U a b (t k) u + app_op U a (fun w => fvalue (x0 w)) u) + (gap U a b (t (S k)) u - gap U a b (t k) u)) by ring.
    eapply Rle_trans; [apply Rabs_triang|]. apply Rplus_le_compat; [apply IH; intros j Hj; apply H; lia|]. eapply gap_step; [apply H; lia|exact Hu].
Qed.
End Gap.

(** ** The run *)
(** component vectors [vs] contain the elements [f] *)
Definition vectors_contain {T} (lg : legion) (s : store loc T) (vs : list pvec) (f : unknown -> T) : Prop :=
  forall i v q, nth_error vs i = Some v -> In q (is_points lg (pv_space v)) -> s (at_point v q) = f (i, q).
(** planner vector [vi] contains the elements [f] *)
Definition vector_contains {T} (lg : legion) (pl : planner T) (s : store loc T) (vi : nat) (f : unknown -> T) : Prop :=
  forall i v q, component pl vi i v -> In q (is_points lg (pv_space v)) -> s (at_point v q) = f (i, q).
Lemma sol_contains T lg (pl : planner T) s f : vector_contains lg pl s 0 f <-> vectors_contain lg s (pl_sol pl) f.
Proof.
  unfold vector_contains, vectors_contain, component, get_vector, vector_row. cbn [obind]. split; intros H i v q Hc Hq; apply (H i v q); auto.
  - rewrite Hc. reflexivity.
  - destruct (nth_error (pl_sol pl) i); [injection Hc as ->; reflexivity|discriminate].
Qed.
Lemma rhs_contains T lg (pl : planner T) s f : vector_contains lg pl s 1 f <-> vectors_contain lg s (pl_rhs pl) f.
Proof.
  unfold vector_contains, vectors_contain, component, get_vector, vector_row. cbn [obind]. split; intros H i v q Hc Hq; apply (H i v q); auto.
  - rewrite Hc. reflexivity.
  - destruct (nth_error (pl_rhs pl) i); [injection Hc as ->; reflexivity|discriminate].
Qed.

Section Run.
Variables p e : Z.
Hypothesis Hpe : format p e.
Variable lg : legion.
Hypothesis Hlg : legion_ok lg.
Variable red : nat -> list spec_float -> spec_float.
Notation A := (ieee p e).
Hypothesis Hred : legal_reduction A red.
Variable cs : list (setup_call spec_float).
Hypothesis Hdom : forall m d r, In (m, d, r) (mats_of cs) -> (d < length (sols_of cs))%nat.
Hypothesis Hfe : float_entries p e cs.
Notation U := (unknowns lg cs).
Notation n := (length (sols_of cs)).
Notation store := (store loc spec_float).
Variable u0 : unknown.
Hypothesis Hu0 : In u0 U.
Variables x0 b : unknown -> spec_float.
Hypothesis Fx0 : forall u, In u U -> is_float p e (x0 u).
Hypothesis Fb : forall u, In u U -> is_float p e (b u).
Notation a := (coefficient_of fvalue cs).
Notation mag := (coefficient_of (fun x => Rabs (fvalue x)) cs).
Notation count := (entry_count lg cs).
Lemma n_pos : (0 < n)%nat.
Proof. destruct u0 as [i q]. apply in_unknowns in Hu0. destruct Hu0 as [H _]. lia. Qed.

Section Pl.
Variable pl : planner spec_float.
Variable nw : nat.
Hypothesis Hw : working lg cs nw pl.
Notation ent s vi u := (entry pl s vi u).
Lemma contains_entry s vi f : (vi < 2 + nw)%nat -> (vector_contains lg pl s vi f <-> forall u, In u U -> ent s vi u = f u).
Proof.
  intros Hv. split.
  - intros H [i q] Hu. apply (in_unknowns_pts Hw) in Hu. destruct Hu as [Hi Hq]. unfold entry. cbn [fst snd].
    assert (Hc : component pl vi i (vec pl vi i)) by (apply (component_iff Hw); auto). apply (H i _ q Hc). rewrite (component_points Hw Hv Hc). exact Hq.
  - intros H i v q Hc Hq. rewrite (component_points Hw Hv Hc) in Hq. apply (component_iff Hw) in Hc; [|exact Hv]. destruct Hc as [Hi ->]. apply (H (i, q)). apply (in_unknowns_pts Hw). auto.
Qed.
Lemma upd_entry vi g s s' u : updates lg pl n vi g s s' -> In u U -> ent s' vi u = g (fst u) (snd u).
Proof. intros [U1 _] Hu. destruct u as [i q]. apply (in_unknowns_pts Hw) in Hu. apply U1; apply Hu. Qed.
Lemma upd_other vi vj g s s' u : (vi < 2 + nw)%nat -> (vj < 2 + nw)%nat -> vj <> vi -> updates lg pl n vi g s s' -> In u U -> ent s' vj u = ent s vj u.
Proof. intros Hv Hj Hne [_ U2] Hu. destruct (working_ready Hw) as [R _]. destruct u as [i q]. apply (in_unknowns_pts Hw) in Hu. apply U2. apply (other_cell R); auto. apply Hu. Qed.
Lemma upd_fut vi g s s' k : updates lg pl n vi g s s' -> s' (LFut k) = s (LFut k).
Proof. intros [_ U2]. apply U2. apply fut_not_in. Qed.
Lemma fr_entry st s s' vi u : frame_fut st s s' -> ent s' vi u = ent s vi u.
Proof. intros H. unfold entry. apply (frame_fut_cell _ _ _ _ H). Qed.
(** the product vector *)
Lemma product_entry vi vj s s' : (vj < 2 + nw)%nat -> updates lg pl n vi (matvec_value A lg pl (fun i q => s (cell pl vj i q))) s s' ->
  (forall u, In u U -> is_float p e (ent s vj u)) ->
  forall u, In u U -> is_float p e (ent s' vi u) /\ (is_number (ent s' vi u) -> Rabs (fvalue (ent s' vi u) - app_op U a (fun w => fvalue (ent s vj w)) u) <= sum_error p e (count u) (app_op U mag (fun w => Rabs (fvalue (ent s vj w))) u)).
Proof.
  intros Hj HU HF u Hu. rewrite (@upd_entry vi _ s s' u HU Hu). destruct u as [i q]. cbn [fst snd].
  pose proof (proj1 (@in_unknowns_pts lg cs nw pl Hw i q) Hu) as [Hi Hq]. rewrite (@matvec_value_block _ lg Hlg cs A nw pl Hw _ i q Hi Hq).
  assert (B := @block_approx p e Hpe False lg cs Hdom Hfe ltac:(tauto) (fun w => ent s vj w) i q). destruct B as (B1 & B2 & _); [intros w Hwu; split; [apply HF; exact Hwu|tauto]|].
  unfold entry in *. cbn [fst snd] in *. split; [exact B1|]. intros Hn. specialize (B2 Hn). rewrite row_products_length, (@row_products_sum _ lg Hlg cs Hdom), (@row_products_mag _ lg Hlg cs Hdom) in B2. exact B2.
Qed.
Lemma dot_entry s vi vj d : (vi < 2 + nw)%nat -> (vj < 2 + nw)%nat -> (forall u, In u U -> is_float p e (ent s vi u) /\ is_float p e (ent s vj u)) ->
  dot_value A lg red pl n s vi vj d -> approx p e False (map (fun u => fvalue (ent s vi u) * fvalue (ent s vj u)) U) d.
Proof.
  intros Hv Hj HF D. apply (@dot_value_approx p e Hpe False lg Hlg cs red Hred nw pl Hw s vi vj d Hv Hj); [|exact D]. intros u Hu. destruct (HF u Hu). tauto.
Qed.
End Pl.

Record fcg_inv (k : nat) (c : cg spec_float) (st : ist) (s : store) : Prop := mk_fcg_inv {
  fi_working : working lg cs 3 (cg_pl c);
  fi_sol : pl_sol (cg_pl c) = sols_of cs;
  fi_rhs : pl_rhs (cg_pl c) = rhss_of cs;
  fi_b : forall u, In u U -> entry (cg_pl c) s RHS u = b u;
  fi_neg1 : s (LFut (cg_neg1 c)) = aneg A (a1 A) /\ (cg_neg1 c < next_fut st)%nat;
  fi_len : length (cg_norms c) = S k;
  fi_norms : forall j f, nth_error (cg_norms c) j = Some f -> (f < next_fut st)%nat /\ is_float p e (s (LFut f));
  fi_floats : forall u, In u U -> is_float p e (entry (cg_pl c) s SOL u) /\ is_float p e (entry (cg_pl c) s CG_R u) /\ is_float p e (entry (cg_pl c) s CG_P u);
  fi_run : (forall u, In u U -> is_number (entry (cg_pl c) s SOL u) /\ is_number (entry (cg_pl c) s CG_P u)) ->
     exists t d, float_cg p e U a mag count x0 b k t d /\
       (forall u, In u U -> entry (cg_pl c) s SOL u = f_x (t k) u /\ entry (cg_pl c) s CG_R u = f_r (t k) u /\ entry (cg_pl c) s CG_P u = f_p (t k) u) /\
       forall j f, nth_error (cg_norms c) j = Some f -> s (LFut f) = f_rho (t j) }.

Ltac rng := unfold SOL, RHS, CG_P, CG_Q, CG_R in *; cbn [length]; lia.
Lemma fcg_new_inv st pl0 s : set_up lg cs st pl0 -> vectors_contain lg s (sols_of cs) x0 -> vectors_contain lg s (rhss_of cs) b ->
  wp (cg_new A lg red pl0) (fcg_inv 0) st s.
Proof.
  intros Hs Hx Hb. unfold cg_new, scalar_const. apply wp_bind. apply wp_scalar_task. intros s1 E1 F1.
  apply wp_bind. apply (@wp_allocate _ lg cs (next st) pl0 3 _ s1); [apply (@set_up_next _ lg cs st); [cbn; lia|exact Hs]|].
  intros pl st1 Hw C3 C4 N1. cbn [next next_fut] in N1. destruct (working_ready Hw) as [R _].
  assert (K : forall vs f, vectors_contain lg s vs f -> vectors_contain lg s1 vs f) by (intros vs f H i v q Hv Hq; rewrite F1 by discriminate; apply (H i v q Hv Hq)).
  assert (X1 : forall u, In u U -> entry pl s1 SOL u = x0 u) by (apply (contains_entry Hw); [rng|]; apply sol_contains; rewrite C3; apply K; exact Hx).
  assert (B1 : forall u, In u U -> entry pl s1 RHS u = b u) by (apply (contains_entry Hw); [rng|]; apply rhs_contains; rewrite C4; apply K; exact Hb).
  apply wp_bind. apply (wp_copy A Hlg R); [rng|rng|rng|]. intros s2 U2.
  assert (P2 : forall u, In u U -> entry pl s2 CG_P u = b u) by (intros u Hu; rewrite (upd_entry Hw _ U2 Hu); exact (B1 u Hu)).
  assert (B2 : forall u, In u U -> entry pl s2 RHS u = b u) by (intros u Hu; rewrite (@upd_other pl 3 Hw CG_P RHS _ _ _ u ltac:(rng) ltac:(rng) ltac:(rng) U2 Hu); exact (B1 u Hu)).
  assert (X2 : forall u, In u U -> entry pl s2 SOL u = x0 u) by (intros u Hu; rewrite (@upd_other pl 3 Hw CG_P SOL _ _ _ u ltac:(rng) ltac:(rng) ltac:(rng) U2 Hu); exact (X1 u Hu)).
  apply wp_bind. apply (wp_copy A Hlg R); [rng|rng|rng|]. intros s3 U3.
  assert (R3 : forall u, In u U -> entry pl s3 CG_R u = b u) by (intros u Hu; rewrite (upd_entry Hw _ U3 Hu); exact (B2 u Hu)).
  assert (P3 : forall u, In u U -> entry pl s3 CG_P u = b u) by (intros u Hu; rewrite (@upd_other pl 3 Hw CG_R CG_P _ _ _ u ltac:(rng) ltac:(rng) ltac:(rng) U3 Hu); exact (P2 u Hu)).
  assert (B3 : forall u, In u U -> entry pl s3 RHS u = b u) by (intros u Hu; rewrite (@upd_other pl 3 Hw CG_R RHS _ _ _ u ltac:(rng) ltac:(rng) ltac:(rng) U3 Hu); exact (B2 u Hu)).
  assert (X3 : forall u, In u U -> entry pl s3 SOL u = x0 u) by (intros u Hu; rewrite (@upd_other pl 3 Hw CG_R SOL _ _ _ u ltac:(rng) ltac:(rng) ltac:(rng) U3 Hu); exact (X2 u Hu)).
  apply wp_bind. apply (wp_dot R); [exact n_pos|rng|rng|]. intros f st4 s4 A1 A2 _ F4 D4. apply wp_ret.
  assert (AD : approx p e False (map (fun u => fvalue (entry pl s3 CG_R u) * fvalue (entry pl s3 CG_R u)) U) (s4 (LFut f))).
  { apply (@dot_entry pl 3 Hw s3 CG_R CG_R); [rng|rng| |exact D4]. intros u Hu. rewrite (R3 u Hu). split; apply Fb; exact Hu. }
  constructor; cbn [cg_pl cg_norms cg_neg1]; auto.
  - intros u Hu. rewrite (fr_entry pl RHS u F4). exact (B3 u Hu).
  - split; [|lia]. rewrite (frame_fut_old F4) by lia. rewrite (@upd_fut pl _ _ _ _ _ U3), (@upd_fut pl _ _ _ _ _ U2). exact E1.
  - intros [|j] g Hg; [|destruct j; discriminate]. injection Hg as <-. split; [exact A2|apply AD].
  - intros u Hu. rewrite !(fr_entry pl _ u F4), (X3 u Hu), (R3 u Hu), (P3 u Hu). split; [apply Fx0; exact Hu|split; apply Fb; exact Hu].
  - intros _. exists (fun _ => mk_fiterate x0 b b (s4 (LFut f))), (fun _ => mk_fdata b (s4 (LFut f)) 0 (s4 (LFut f))). split; [split; [|intros j Hj; lia]|].
    + constructor; cbn [f_x f_r f_p f_rho]; auto. intros Hn. apply summed_of_approx; [|exact Hn]. erewrite map_ext_in; [exact AD|]. intros u Hu. cbn beta. rewrite (R3 u Hu). reflexivity.
    + split; [intros u Hu; cbn [f_x f_r f_p]; rewrite !(fr_entry pl _ u F4), (X3 u Hu), (R3 u Hu), (P3 u Hu); auto|].
      intros [|j] g Hg; [|destruct j; discriminate]. injection Hg as <-. reflexivity.
Qed.
Lemma fstep_ext t1 t2 d t1' t2' : (forall u, In u U -> f_x t1 u = f_x t2 u /\ f_r t1 u = f_r t2 u /\ f_p t1 u = f_p t2 u) -> f_rho t1 = f_rho t2 -> t1' = t2' ->
  fstep p e U a mag count t1 d t1' -> fstep p e U a mag count t2 d t2'.
Proof.
  intros H Er <- [S1 S2 S3 S4 S5 S6 S7 S8].
  assert (Ep : forall g : spec_float -> R, forall m u, app_op U m (fun w => g (f_p t2 w)) u = app_op U m (fun w => g (f_p t1 w)) u) by (intros g m u; apply app_ext; intros w Hw; destruct (H w Hw) as (_ & _ & E); rewrite E; reflexivity).
  constructor; rewrite <- ?Er; auto.
  - intros u Hu. rewrite (Ep fvalue), (Ep (fun z => Rabs (fvalue z))). exact (S1 u Hu).
  - destruct S3 as [(K1 & K2)|K]; [left|right; exact K]. split; [|exact K2]. destruct K1 as (K3 & K4 & K5). split; [exact K3|]. split; [exact K4|].
    rewrite (Rsum_ext (fun u => fvalue (f_p t2 u) * fvalue (f_q d u)) (fun u => fvalue (f_p t1 u) * fvalue (f_q d u))) by (intros w Hw; destruct (H w Hw) as (_ & _ & E); rewrite E; reflexivity).
    rewrite (Rsum_ext (fun u => Rabs (fvalue (f_p t2 u) * fvalue (f_q d u))) (fun u => Rabs (fvalue (f_p t1 u) * fvalue (f_q d u)))) by (intros w Hw; destruct (H w Hw) as (_ & _ & E); rewrite E; reflexivity). exact K5.
  - intros u Hu. destruct (H u Hu) as (E1 & E2 & E3). rewrite <- E1, <- E3. exact (S4 u Hu).
  - intros u Hu. destruct (H u Hu) as (E1 & E2 & E3). rewrite <- E2. exact (S5 u Hu).
  - intros u Hu. destruct (H u Hu) as (E1 & E2 & E3). rewrite <- E3. exact (S8 u Hu).
Qed.
Lemma fcg_step_inv k c st s : fcg_inv k c st s -> wp (cg_step A lg red c) (fcg_inv (S k)) st s.
Proof.
  intros [Hw C3 C4 HB [E1 L1] HL HN HF HR]. unfold cg_step. set (pl := cg_pl c) in *. destruct (working_ready Hw) as [R _].
  assert (FSOL : forall u, In u U -> is_float p e (entry pl s SOL u)) by (intros u Hu; apply (HF u Hu)).
  assert (FCR : forall u, In u U -> is_float p e (entry pl s CG_R u)) by (intros u Hu; apply (HF u Hu)).
  assert (FCP : forall u, In u U -> is_float p e (entry pl s CG_P u)) by (intros u Hu; apply (HF u Hu)).
  apply wp_bind. apply (wp_matvec Hlg R); [rng|rng|rng|]. intros s1 U1.
  assert (Q1 := @product_entry pl 3 Hw CG_Q CG_P s s1 ltac:(rng) U1 FCP).
  assert (K1 : forall vj u, (vj < 5)%nat -> vj <> CG_Q -> In u U -> entry pl s1 vj u = entry pl s vj u) by (intros vj u H1 H2 Hu; refine (@upd_other pl 3 Hw CG_Q vj _ s s1 u _ _ _ U1 Hu); rng).
  assert (F1 : forall f, s1 (LFut f) = s (LFut f)) by (intros f; apply (@upd_fut pl _ _ _ _ f U1)).
  apply wp_bind. apply (wp_dot R); [exact n_pos|rng|rng|]. intros fp st2 s2 A1 A2 _ F2 D2.
  assert (K2 : forall vj u, entry pl s2 vj u = entry pl s1 vj u) by (intros vj u; apply (fr_entry pl vj u F2)).
  assert (AP : approx p e False (map (fun u => fvalue (entry pl s1 CG_P u) * fvalue (entry pl s1 CG_Q u)) U) (s2 (LFut fp))).
  { apply (@dot_entry pl 3 Hw s1 CG_P CG_Q); [rng|rng| |exact D2]. intros u Hu. split; [rewrite (K1 CG_P) by (first [rng|exact Hu]); apply FCP; exact Hu|apply (Q1 u Hu)]. }
  destruct (nth_error (cg_norms c) k) as [fo|] eqn:En; [|apply nth_error_None in En; lia].
  destruct (HN k fo En) as [No Fo].
  apply wp_bind. unfold back. eapply wp_lift; [rewrite (@back_snoc _ (cg_norms c) k fo HL En); reflexivity|].
  assert (Vo2 : s2 (LFut fo) = s (LFut fo)) by (rewrite (frame_fut_old F2) by lia; apply F1).
  assert (Vn2 : s2 (LFut (cg_neg1 c)) = aneg A (a1 A)) by (rewrite (frame_fut_old F2) by lia; rewrite F1; exact E1).
  apply wp_bind. apply (wp_axpy A Hlg R); [rng|rng|rng|rng|]. intros s3 U3.
  assert (K3 : forall vj u, (vj < 5)%nat -> vj <> SOL -> In u U -> entry pl s3 vj u = entry pl s2 vj u) by (intros vj u H1 H2 Hu; refine (@upd_other pl 3 Hw SOL vj _ s2 s3 u _ _ _ U3 Hu); rng).
  assert (F3 : forall f, s3 (LFut f) = s2 (LFut f)) by (intros f; apply (@upd_fut pl _ _ _ _ f U3)).
  apply wp_bind. apply (wp_axpy A Hlg R); [rng|rng|rng|rng|]. intros s4 U4.
  assert (K4 : forall vj u, (vj < 5)%nat -> vj <> CG_R -> In u U -> entry pl s4 vj u = entry pl s3 vj u) by (intros vj u H1 H2 Hu; refine (@upd_other pl 3 Hw CG_R vj _ s3 s4 u _ _ _ U4 Hu); rng).
  assert (F4 : forall f, s4 (LFut f) = s3 (LFut f)) by (intros f; apply (@upd_fut pl _ _ _ _ f U4)).
  apply wp_bind. apply (wp_dot R); [exact n_pos|rng|rng|]. intros fn st5 s5 A3 A4 _ F5 D5.
  assert (K5 : forall vj u, entry pl s5 vj u = entry pl s4 vj u) by (intros vj u; apply (fr_entry pl vj u F5)).
  apply wp_bind. apply (wp_xpay A Hlg R); [rng|rng|rng|rng|]. intros s6 U6.
  assert (K6 : forall vj u, (vj < 5)%nat -> vj <> CG_P -> In u U -> entry pl s6 vj u = entry pl s5 vj u) by (intros vj u H1 H2 Hu; refine (@upd_other pl 3 Hw CG_P vj _ s5 s6 u _ _ _ U6 Hu); rng).
  assert (F6 : forall f, s6 (LFut f) = s5 (LFut f)) by (intros f; apply (@upd_fut pl _ _ _ _ f U6)).
  apply wp_ret.
  (* the values *)
  set (X := entry pl s SOL). set (Rv := entry pl s CG_R). set (Pv := entry pl s CG_P). set (Q := entry pl s1 CG_Q).
  set (X' := entry pl s6 SOL). set (R' := entry pl s6 CG_R). set (P' := entry pl s6 CG_P).
  set (rho := s (LFut fo)) in *. set (sigma := s2 (LFut fp)) in *. set (rho' := s5 (LFut fn)) in *.
  destruct Hpe as [Hp He].
  assert (Fn : is_float p e (aneg A (a1 A))) by (cbn [ieee aneg a1]; apply opp_float; apply normalize_float; assumption).
  assert (Enn : fvalue (aneg A (a1 A)) = -1) by (cbn [ieee aneg a1]; destruct (one_value Hp He) as [O1 O2]; destruct (opp_value _ (opp_number _ O1)) as [_ O3]; rewrite O3, O2; reflexivity).
  assert (AP' : approx p e False (map (fun u => fvalue (Pv u) * fvalue (Q u)) U) sigma) by (erewrite map_ext_in; [exact AP|]; intros u Hu; cbn beta; rewrite (K1 CG_P) by (first [rng|exact Hu]); reflexivity).
  assert (HX' : forall u, In u U -> X' u = sf_fma p e (SFdiv p e rho sigma) (Pv u) (X u)).
  { intros u Hu. unfold X'. rewrite (K6 SOL) by (first [rng|exact Hu]). rewrite K5, (K4 SOL) by (first [rng|exact Hu]). rewrite (upd_entry Hw _ U3 Hu). cbn [ieee afma]. f_equal.
    - unfold alpha_of, fut. cbn [map get_alpha]. rewrite Vo2. reflexivity.
    - change (entry pl s2 CG_P u = Pv u). rewrite K2, (K1 CG_P) by (first [rng|exact Hu]). reflexivity.
    - change (entry pl s2 SOL u = X u). rewrite K2, (K1 SOL) by (first [rng|exact Hu]). reflexivity. }
  assert (HR4 : forall u, In u U -> entry pl s4 CG_R u = sf_fma p e (SFdiv p e (SFmul p e (aneg A (a1 A)) rho) sigma) (Q u) (Rv u)).
  { intros u Hu. rewrite (upd_entry Hw _ U4 Hu). cbn [afma ieee]. f_equal.
    - unfold alpha_of, fut. cbn [map get_alpha]. rewrite !F3, Vo2, Vn2. reflexivity.
    - change (entry pl s3 CG_Q u = Q u). rewrite (K3 CG_Q) by (first [rng|exact Hu]). rewrite K2. reflexivity.
    - change (entry pl s3 CG_R u = Rv u). rewrite (K3 CG_R) by (first [rng|exact Hu]). rewrite K2, (K1 CG_R) by (first [rng|exact Hu]). reflexivity. }
  assert (ER' : forall u, In u U -> R' u = entry pl s4 CG_R u) by (intros u Hu; unfold R'; rewrite (K6 CG_R) by (first [rng|exact Hu]); apply K5).
  assert (HR' : forall u, In u U -> R' u = sf_fma p e (SFdiv p e (SFmul p e (aneg A (a1 A)) rho) sigma) (Q u) (Rv u)) by (intros u Hu; rewrite (ER' u Hu); exact (HR4 u Hu)).
  assert (FR4 : forall u, In u U -> is_float p e (entry pl s4 CG_R u)).
  { intros u Hu. rewrite (HR4 u Hu). apply fma_float; try assumption; [|apply (Q1 u Hu)|apply FCR; exact Hu]. apply div_float; try assumption; [apply mul_float; assumption|apply AP']. }
  assert (AR : approx p e False (map (fun u => fvalue (R' u) * fvalue (R' u)) U) rho').
  { erewrite map_ext_in; [apply (@dot_entry pl 3 Hw s4 CG_R CG_R); [rng|rng| |exact D5]|]; [intros u Hu; split; apply FR4; exact Hu|]. intros u Hu. cbn beta. rewrite (ER' u Hu). reflexivity. }
  assert (HP' : forall u, In u U -> P' u = sf_fma p e (SFdiv p e rho' rho) (Pv u) (R' u)).
  { intros u Hu. unfold P'. rewrite (upd_entry Hw _ U6 Hu). cbn [ieee afma]. f_equal.
    - unfold alpha_of, fut. cbn [map get_alpha]. rewrite (@frame_fut_old _ st2 s4 s5 fo F5) by lia. rewrite F4, F3, Vo2. reflexivity.
    - change (entry pl s5 CG_P u = Pv u). rewrite K5, (K4 CG_P), (K3 CG_P), K2, (K1 CG_P) by (first [rng|exact Hu]). reflexivity.
    - change (entry pl s5 CG_R u = R' u). rewrite (ER' u Hu). apply K5. }
  assert (FS := @step_floats p e (conj Hp He) unknown U a mag count X Rv Pv Q X' R' P' rho sigma rho' _ Fn FSOL FCR FCP Fo Q1 AP' HX' HR' AR HP').
  constructor; cbn [cg_pl cg_norms cg_neg1]; auto.
  - intros u Hu. rewrite (K6 RHS), K5, (K4 RHS), (K3 RHS), K2, (K1 RHS) by (first [rng|exact Hu]). exact (HB u Hu).
  - split; [|lia]. rewrite F6, (@frame_fut_old _ st2 s4 s5 _ F5) by lia. rewrite F4, F3. exact Vn2.
  - rewrite app_length, HL. cbn [length]. lia.
  - intros j f Hf. destruct (Nat.lt_ge_cases j (S k)) as [Hj|Hj].
    + rewrite nth_error_app1 in Hf by lia. destruct (HN j f Hf) as [N V]. split; [lia|]. rewrite F6, (@frame_fut_old _ st2 s4 s5 _ F5), F4, F3, (frame_fut_old F2), F1 by lia. exact V.
    + rewrite nth_error_app2 in Hf by lia. destruct (j - length (cg_norms c))%nat as [|i] eqn:Ej; [|destruct i; discriminate]. injection Hf as <-. split; [exact A4|]. rewrite F6. apply AR.
  - intros NU.
    assert (NX : forall u, In u U -> is_number (X' u)) by (intros u Hu; apply (NU u Hu)).
    assert (NP : forall u, In u U -> is_number (P' u)) by (intros u Hu; apply (NU u Hu)).
    destruct (@step_numbers p e (conj Hp He) unknown U a mag count u0 Hu0 X Rv Pv Q X' R' P' rho sigma rho' _ Fn FSOL FCR FCP Fo Q1 AP' HX' HR' AR HP' NX NP) as (G & _).
    assert (ST := @step_fstep p e (conj Hp He) unknown U a mag count u0 Hu0 X Rv Pv Q X' R' P' rho sigma rho' _ Fn Enn FSOL FCR FCP Fo Q1 AP' HX' HR' AR HP' NX NP).
    destruct HR as (t & d & (T1 & T2) & T3 & T4); [intros u Hu; split; apply (G u Hu)|].
    set (t' := fun j => if (j <=? k)%nat then t j else mk_fiterate X' R' P' rho'). set (d' := fun j => if (j <? k)%nat then d j else mk_fdata Q sigma (fvalue (SFdiv p e rho sigma)) (SFdiv p e rho' rho)).
    assert (Et : forall j, (j <= k)%nat -> t' j = t j) by (intros j Hj; unfold t'; rewrite (proj2 (Nat.leb_le j k) Hj); reflexivity).
    assert (Es : t' (S k) = mk_fiterate X' R' P' rho') by (unfold t'; rewrite (proj2 (Nat.leb_gt (S k) k) ltac:(lia)); reflexivity).
    exists t', d'. split; [split|split].
    + rewrite (Et 0%nat) by lia. exact T1.
    + intros j Hj. rewrite (Et j) by lia. destruct (Nat.eq_dec j k) as [->|Hne].
      * rewrite Es. unfold d'. rewrite Nat.ltb_irrefl. refine (@fstep_ext (mk_fiterate X Rv Pv rho) (t k) _ _ _ _ _ (eq_refl _) ST); cbn [f_x f_r f_p f_rho]; [exact T3|exact (T4 k fo En)].
      * rewrite (Et (S j)) by lia. unfold d'. rewrite (proj2 (Nat.ltb_lt j k)) by lia. apply T2. lia.
    + rewrite Es. cbn [f_x f_r f_p]. intros u Hu. auto.
    + intros j f Hf. destruct (Nat.lt_ge_cases j (S k)) as [Hj|Hj].
      * rewrite nth_error_app1 in Hf by lia. destruct (HN j f Hf) as [N V]. rewrite (Et j) by lia. rewrite F6, (@frame_fut_old _ st2 s4 s5 _ F5), F4, F3, (frame_fut_old F2), F1 by lia. exact (T4 j f Hf).
      * rewrite nth_error_app2 in Hf by lia. rewrite HL in Hf. destruct (j - S k)%nat as [|i] eqn:Ej; [|destruct i; discriminate]. injection Hf as <-. assert (j = S k) by lia. subst j. rewrite Es. rewrite F6. reflexivity.
Qed.
Lemma fcg_run_inv st pl0 s k : set_up lg cs st pl0 -> vectors_contain lg s (sols_of cs) x0 -> vectors_contain lg s (rhss_of cs) b -> wp (cg_run A lg red pl0 k) (fcg_inv k) st s.
Proof.
  intros Hs Hx Hb. unfold cg_run. apply wp_bind. eapply wp_conseq; [apply fcg_new_inv; eassumption|]. intros c st' s' H.
  induction k as [|k IH]; cbn [cg_steps]; [apply wp_ret; exact H|]. apply wp_bind. eapply wp_conseq; [exact IH|]. intros c' st1 s1 H'. apply fcg_step_inv. exact H'.
Qed.
End Run.

(** ** C68.  CG in an IEEE format is the CG iteration up to one rounding per entry and the usual errors of sums, as long as
    the solution and direction vectors contain no infinity or NaN. *)
Definition finite_vectors (lg : legion) (s : store loc spec_float) (vs : list pvec) : Prop := forall v q, In v vs -> In q (is_points lg (pv_space v)) -> is_number (s (at_point v q)).
Definition finite_vector_of (lg : legion) (pl : planner spec_float) (s : store loc spec_float) (vi : nat) : Prop :=
  forall i v q, component pl vi i v -> In q (is_points lg (pv_space v)) -> is_number (s (at_point v q)).
Lemma vector_contains_eq T lg (pl : planner T) (s s' : store loc T) vi f : (forall l, s' l = s l) -> vector_contains lg pl s vi f -> vector_contains lg pl s' vi f.
Proof. intros E H i v q Hc Hq. rewrite E. apply H; assumption. Qed.
Theorem C68_float_cg_run : forall (p e : Z) lg red (cs : list (setup_call spec_float)) st pl0 s x0 b k,
  format p e -> legion_ok lg -> legal_reduction (ieee p e) red -> set_up lg cs st pl0 -> float_entries p e cs -> unknowns lg cs <> [] ->
  vectors_contain lg s (sols_of cs) x0 -> vectors_contain lg s (rhss_of cs) b ->
  (forall u, In u (unknowns lg cs) -> is_float p e (x0 u) /\ is_float p e (b u)) ->
  accepted (cg_run (ieee p e) lg red pl0 k) st /\
  forall c st' s', ends (cg_run (ieee p e) lg red pl0 k) st s c st' s' ->
    vectors_contain lg s' (rhss_of cs) b /\ length (cg_norms c) = S k /\
    (finite_vectors lg s' (sols_of cs) -> finite_vector_of lg (cg_pl c) s' CG_P ->
     exists t d, float_cg p e (unknowns lg cs) (coefficient_of fvalue cs) (coefficient_of (fun x => Rabs (fvalue x)) cs) (entry_count lg cs) x0 b k t d /\
       vectors_contain lg s' (sols_of cs) (f_x (t k)) /\ vector_contains lg (cg_pl c) s' CG_R (f_r (t k)) /\ vector_contains lg (cg_pl c) s' CG_P (f_p (t k)) /\
       forall j f, nth_error (cg_norms c) j = Some f -> s' (LFut f) = f_rho (t j)).
Proof.
  intros p e lg red cs st pl0 s x0 b k Hpe Hlg Hred Hs Hfe Hne Hx Hb Hf.
  destruct (unknowns lg cs) as [|u0 us] eqn:Eus; [contradiction|]. rewrite <- Eus in *. assert (Hu0 : In u0 (unknowns lg cs)) by (rewrite Eus; left; reflexivity).
  assert (Hdom : forall m d r, In (m, d, r) (mats_of cs) -> (d < length (sols_of cs))%nat).
  { intros m d r Hin. assert (W : wp (allocate_workspace lg pl0 3) (fun pl _ _ => working lg cs 3 pl) st s) by (apply (@wp_allocate _ lg cs st pl0 3 _ s Hs); auto).
    destruct W as (pl & lns & st1 & _ & _ & Hw). apply (mats_domain Hw m d r Hin). }
  assert (W := @fcg_run_inv p e Hpe lg Hlg red Hred cs Hdom Hfe u0 Hu0 x0 b (fun u Hu => proj1 (Hf u Hu)) (fun u Hu => proj2 (Hf u Hu)) st pl0 s k Hs Hx Hb).
  split; [eapply wp_accepted; exact W|]. intros c st' s' He. destruct (wp_ends W He) as [s1 [[Hw C3 C4 HB _ HL HN HF HR] E]].
  assert (Lv : forall vi, In vi [SOL; RHS; CG_R; CG_P] -> (vi < 2 + 3)%nat) by (intros vi Hv; unfold SOL, RHS, CG_R, CG_P in Hv; cbn in Hv; lia).
  split; [rewrite <- C4; apply rhs_contains; apply (@vector_contains_eq _ _ _ s1 s' _ _ E); apply (contains_entry Hw); [apply Lv; cbn; tauto|exact HB]|]. split; [exact HL|].
  intros NS NP. destruct HR as (t & d & T1 & T2 & T3).
  { assert (K : forall vi u, (vi < 2 + 3)%nat -> finite_vector_of lg (cg_pl c) s' vi -> In u (unknowns lg cs) -> is_number (entry (cg_pl c) s1 vi u)).
    { intros vi [i q] Hv H Hu. apply (in_unknowns_pts Hw) in Hu. destruct Hu as [Hi Hq]. unfold entry. cbn [fst snd]. rewrite <- E.
      assert (Hc : component (cg_pl c) vi i (vec (cg_pl c) vi i)) by (apply (component_iff Hw); auto). apply (H i _ q Hc). rewrite (component_points Hw Hv Hc). exact Hq. }
    intros u Hu. split; apply K; auto; try (apply Lv; cbn; tauto). intros i v q Hc Hq. apply NS; [|exact Hq]. unfold component, get_vector, vector_row, SOL in Hc. cbn [obind] in Hc. rewrite C3 in Hc.
    destruct (nth_error (sols_of cs) i) eqn:Ei; [|discriminate]. injection Hc as ->. eapply nth_error_In; exact Ei. }
  exists t, d. split; [exact T1|].
  split; [rewrite <- C3; apply sol_contains; apply (@vector_contains_eq _ _ _ s1 s' _ _ E); apply (contains_entry Hw); [apply Lv; cbn; tauto|intros u Hu; apply (T2 u Hu)]|].
  split; [apply (@vector_contains_eq _ _ _ s1 s' _ _ E); apply (contains_entry Hw); [apply Lv; cbn; tauto|intros u Hu; apply (T2 u Hu)]|].
  split; [apply (@vector_contains_eq _ _ _ s1 s' _ _ E); apply (contains_entry Hw); [apply Lv; cbn; tauto|intros u Hu; apply (T2 u Hu)]|].
  intros j f Hj. rewrite E. exact (T3 j f Hj).
Qed.

(** ** C69.  The residual the solver iterates on is the true residual b - A (x - x0) up to the accumulated rounding errors,
    and the recorded squared norm is the squared norm of the true residual up to them. *)
Lemma square_close x y d : Rabs (x - y) <= d -> Rabs (x * x - y * y) <= d * (2 * Rabs y + d).
Proof.
  intros H. replace (x * x - y * y) with ((x - y) * (2 * y + (x - y))) by ring. rewrite Rabs_mult. apply Rmult_le_compat; [apply Rabs_pos|apply Rabs_pos|exact H|].
  eapply Rle_trans; [apply Rabs_triang|]. apply Rplus_le_compat; [|exact H]. rewrite Rabs_mult, (Rabs_pos_eq 2) by lra. lra.
Qed.
Theorem C69_residual_gap : forall (p e : Z) lg red (cs : list (setup_call spec_float)) st pl0 s x0 b k c st' s',
  format p e -> legion_ok lg -> legal_reduction (ieee p e) red -> set_up lg cs st pl0 -> float_entries p e cs -> unknowns lg cs <> [] ->
  vectors_contain lg s (sols_of cs) x0 -> vectors_contain lg s (rhss_of cs) b ->
  (forall u, In u (unknowns lg cs) -> is_float p e (x0 u) /\ is_float p e (b u)) ->
  ends (cg_run (ieee p e) lg red pl0 k) st s c st' s' ->
  finite_vectors lg s' (sols_of cs) -> finite_vector_of lg (cg_pl c) s' CG_P ->
  let us := unknowns lg cs in
  let a := coefficient_of fvalue cs in
  exists (x r : unknown -> spec_float) t d,
    (* x and r are what the solution vector and the residual vector contain at the end *)
    vectors_contain lg s' (sols_of cs) x /\ vector_contains lg (cg_pl c) s' CG_R r /\
    float_cg p e us a (coefficient_of (fun x => Rabs (fvalue x)) cs) (entry_count lg cs) x0 b k t d /\
    let true_residual u := fvalue (b u) - apply_op us a (fun w => fvalue (x w) - fvalue (x0 w)) u in
    (* the rounding errors of all steps *)
    let delta u := Rsum (fun j => drift p e us a (coefficient_of (fun x => Rabs (fvalue x)) cs) (entry_count lg cs) (t j) (d j) u) (seq 0 k) in
    (forall u, In u us -> Rabs (true_residual u - fvalue (r u)) <= delta u) /\
    forall f, nth_error (cg_norms c) k = Some f -> is_number (s' (LFut f)) ->
      Rabs (fvalue (s' (LFut f)) - Rsum (fun u => true_residual u * true_residual u) us) <=
        sum_error p e (length us) (Rsum (fun u => fvalue (r u) * fvalue (r u)) us) + Rsum (fun u => delta u * (2 * Rabs (fvalue (r u)) + delta u)) us.
Proof.
  intros p e lg red cs st pl0 s x0 b k c st' s' Hpe Hlg Hred Hs Hfe Hne Hx Hb Hf He NS NP us a.
  destruct (@C68_float_cg_run p e lg red cs st pl0 s x0 b k Hpe Hlg Hred Hs Hfe Hne Hx Hb Hf) as [_ H]. destruct (H c st' s' He) as (_ & _ & H'). destruct (H' NS NP) as (t & d & T1 & T2 & T3 & _ & T5). clear H H'.
  exists (f_x (t k)), (f_r (t k)), t, d. split; [exact T2|]. split; [exact T3|]. split; [exact T1|]. intros true_residual delta.
  assert (G : forall u, In u us -> Rabs (true_residual u - fvalue (f_r (t k) u)) <= delta u).
  { intros u Hu. pose proof (gap_run _ T1 Hu) as G. unfold gap in G. unfold true_residual. change (fun w => fvalue (f_x (t k) w) - fvalue (x0 w)) with (vsub (fun w => fvalue (f_x (t k) w)) (fun w => fvalue (x0 w))).
    change (apply_op us a) with (app_op us a). rewrite app_sub. fold us a in G. match goal with |- Rabs ?z <= _ => match type of G with Rabs ?w <= _ => replace z with w by ring end end. exact G. }
  split; [exact G|]. intros f Hk Nf. rewrite (T5 k f Hk) in *.
  assert (S : summed p e us (fun u => fvalue (f_r (t k) u) * fvalue (f_r (t k) u)) (f_rho (t k))).
  { destruct T1 as [[S1 S2 S3 S4] S5]. destruct k as [|k].
    - destruct (S4 Nf) as (K1 & K2 & K3). split; [exact K1|]. split; [exact K2|].
      rewrite (Rsum_ext (fun u => fvalue (f_r (t 0%nat) u) * fvalue (f_r (t 0%nat) u)) (fun u => fvalue (b u) * fvalue (b u))) by (intros u Hu; rewrite (S2 u Hu); reflexivity).
      rewrite (Rsum_ext (fun u => Rabs (fvalue (f_r (t 0%nat) u) * fvalue (f_r (t 0%nat) u))) (fun u => Rabs (fvalue (b u) * fvalue (b u)))) by (intros u Hu; rewrite (S2 u Hu); reflexivity). exact K3.
    - apply (fs_rho (S5 k (Nat.lt_succ_diag_r k))). }
  destruct S as (_ & _ & S).
  rewrite (Rsum_ext (fun u => Rabs (fvalue (f_r (t k) u) * fvalue (f_r (t k) u))) (fun u => fvalue (f_r (t k) u) * fvalue (f_r (t k) u))) in S by (intros u _; apply Rabs_pos_eq; apply Rle_0_sqr).
  set (rr := Rsum (fun u => fvalue (f_r (t k) u) * fvalue (f_r (t k) u)) us) in *. set (tt := Rsum (fun u => true_residual u * true_residual u) us).
  assert (D : Rabs (tt - rr) <= Rsum (fun u => delta u * (2 * Rabs (fvalue (f_r (t k) u)) + delta u)) us).
  { unfold tt, rr. replace (Rsum (fun u => true_residual u * true_residual u) us - Rsum (fun u => fvalue (f_r (t k) u) * fvalue (f_r (t k) u)) us) with (Rsum (fun u => true_residual u * true_residual u - fvalue (f_r (t k) u) * fvalue (f_r (t k) u)) us).
    - apply Rsum_abs_le. intros u Hu. apply square_close. exact (G u Hu).
    - rewrite (Rsum_ext _ (fun u => true_residual u * true_residual u + (-1) * (fvalue (f_r (t k) u) * fvalue (f_r (t k) u)))) by (intros; ring). rewrite Rsum_plus, Rsum_scal. ring. }
  replace (fvalue (f_rho (t k)) - tt) with ((fvalue (f_rho (t k)) - rr) + - (tt - rr)) by ring. eapply Rle_trans; [apply Rabs_triang|]. rewrite Rabs_Ropp. apply Rplus_le_compat; assumption.
Qed.

(** *** A concrete run in double: diag(1, 3), b = (1, 1), x0 = 0, two steps (the second step length, 2/3, is rounded) *)
Definition diag64 : coo f64 := mk_coo [[0];[1]]%Z (fun kp => kp) (fun kp => kp) (fun kp => if mem kp [[0]]%Z then f64_of_Z 1 else f64_of_Z 3).
Definition diag64_calls : list (setup_call f64) := [AddSol (v2 3 10); AddRhs (v2 3 20); AddMatrix (COO diag64) 0 0].
Definition ones64 : store loc f64 := fun l => match l with LVec 10 _ _ => f64_zero | _ => f64_of_Z 1 end.
Definition left_sum (A : arith f64) (_ : nat) (l : list f64) : f64 := fold_left (aadd A) l (a0 A).
Lemma diag64_well_formed : well_formed lg2 diag64_calls ex_st.
Proof.
  constructor.
  - cbn. intros v [<-|[<-|[]]]; (split; [|cbn; lia]); eexists 3%nat, _, 0%nat; reflexivity.
  - cbn. repeat (constructor; [cbn; intuition discriminate|]). constructor.
  - reflexivity.
  - cbn. intros m d r [E|[]]. injection E as <- <- <-. cbn. auto.
Qed.
Lemma diag64_legal : legal diag64_calls.
Proof.
  intros before c after E. unfold diag64_calls in E.
  do 3 (destruct before as [|? before]; cbn [app] in E; [injection E as <- <-; cbn [allowed sols_of rhss_of flat_map app length nth_error];
    repeat split; try lia; intros; repeat match goal with Hw : _ = Some _ |- _ => try discriminate Hw; injection Hw as <- end; auto|injection E as <- E]).
  destruct before; discriminate.
Qed.
Definition diag64_planner : planner f64 := match do_calls lg2 (new_planner f64) diag64_calls with Ok pl0 => pl0 | _ => new_planner f64 end.
Example C68_example : let A := ieee 53 1024 in let red := left_sum A in
  format 53 1024 /\ legion_ok lg2 /\ legal_reduction A red /\ set_up lg2 diag64_calls ex_st diag64_planner /\ float_entries 53 1024 diag64_calls /\ unknowns lg2 diag64_calls <> [] /\
  vectors_contain lg2 ones64 (sols_of diag64_calls) (fun _ => f64_zero) /\ vectors_contain lg2 ones64 (rhss_of diag64_calls) (fun _ => f64_of_Z 1) /\
  (forall u, In u (unknowns lg2 diag64_calls) -> is_float 53 1024 f64_zero /\ is_float 53 1024 (f64_of_Z 1)) /\
  forall c st' s', ends (cg_run A lg2 red diag64_planner 2) ex_st ones64 c st' s' ->
    finite_vectors lg2 s' (sols_of diag64_calls) /\ finite_vector_of lg2 (cg_pl c) s' CG_P /\
    (* the solution: 1 and the double next to 1/3 (a rounding error) *)
    s' (at_point (v2 3 10) [0]%Z) = f64_of_Z 1 /\ s' (at_point (v2 3 10) [1]%Z) = S754_finite false 6004799503160662 (-54).
Proof.
  intros A red. assert (Hs : set_up lg2 diag64_calls ex_st diag64_planner) by (split; [exact diag64_well_formed|reflexivity]).
  assert (Hr : legal_reduction A red) by (apply fold_left_legal).
  assert (Hf : float_entries 53 1024 diag64_calls) by (intros m d r H kp Hk; cbn in H; destruct H as [E|[]]; injection E as <- <- <-; cbn in Hk; destruct Hk as [<-|[<-|[]]]; reflexivity).
  assert (Hx : vectors_contain lg2 ones64 (sols_of diag64_calls) (fun _ => f64_zero)) by (intros [|[|i]] v q Hv Hq; cbn in Hv; try discriminate; injection Hv as <-; reflexivity).
  assert (Hb : vectors_contain lg2 ones64 (rhss_of diag64_calls) (fun _ => f64_of_Z 1)) by (intros [|[|i]] v q Hv Hq; cbn in Hv; try discriminate; injection Hv as <-; reflexivity).
  assert (HF : forall u, In u (unknowns lg2 diag64_calls) -> is_float 53 1024 f64_zero /\ is_float 53 1024 (f64_of_Z 1)) by (intros; split; reflexivity).
  split; [exact double_format_ok|]. split; [exact lg2_ok|]. split; [exact Hr|]. split; [exact Hs|]. split; [exact Hf|]. split; [discriminate|]. split; [exact Hx|]. split; [exact Hb|]. split; [exact HF|].
  intros c st' s' He.
  assert (Hdom : forall m d r, In (m, d, r) (mats_of diag64_calls) -> (d < length (sols_of diag64_calls))%nat) by (intros m d r H; cbn in H; destruct H as [E|[]]; injection E as <- <- <-; cbn; lia).
  assert (W := @fcg_run_inv 53 1024 double_format_ok lg2 lg2_ok red Hr diag64_calls Hdom Hf (0%nat, [0]%Z) ltac:(cbn; tauto) _ _ (fun u Hu => proj1 (HF u Hu)) (fun u Hu => proj2 (HF u Hu)) ex_st diag64_planner ones64 2%nat Hs Hx Hb).
  destruct W as (c0 & lns & st0 & E1 & G & I). destruct He as (lns1 & E2 & L). assert (E3 := eq_trans (eq_sym E1) E2). injection E3 as <- <- <-. clear E2.
  assert (D : forall l, s' l = effect lns ones64 l) by (apply launches_end_effect; assumption).
  assert (S : match cg_run A lg2 red diag64_planner 2 ex_st with Ok (c, lns, _) =>
      map (fun q => effect lns ones64 (at_point (v2 3 10) q)) [[0];[1]]%Z = [f64_of_Z 1; S754_finite false 6004799503160662 (-54)] /\
      map (fun q => entry (cg_pl c) (effect lns ones64) CG_P (0%nat, q)) [[0];[1]]%Z = [S754_finite false 4503599627370496 (-107); S754_finite true 4503599627370496 (-107)]
    | _ => False end) by (vm_compute; split; reflexivity).
  unfold A in S. change (ieee 53 1024) with A in E1. unfold A in E1. rewrite E1 in S. destruct S as [S1 S2]. cbn [map] in S1, S2. injection S1 as X0 X1. injection S2 as P0 P1.
  assert (Hw := fi_working I).
  split; [|split; [|split; rewrite D; assumption]].
  - intros v q Hv Hq. destruct Hv as [<-|[]]. rewrite D. cbn in Hq. destruct Hq as [<-|[<-|[]]]; [rewrite X0|rewrite X1]; exact Logic.I.
  - intros i v q Hc Hq. assert (Lv : (CG_P < 2 + 3)%nat) by (unfold CG_P; lia). rewrite (component_points Hw Lv Hc) in Hq. apply (component_iff Hw) in Hc; [|exact Lv]. destruct Hc as [Hi ->].
    assert (Hu : In (i, q) (unknowns lg2 diag64_calls)) by (apply (in_unknowns_pts Hw); auto). rewrite D. change (is_number (entry (cg_pl c0) (effect lns ones64) CG_P (i, q))).
    cbn in Hu. destruct Hu as [Hu|[Hu|[]]]; injection Hu as <- <-; [rewrite P0|rewrite P1]; exact Logic.I.
Qed.
