(** FloatCGBits: the conjugate gradient solver in an IEEE format, bit by bit: which floats a step writes, given the results of its two dot products. *)
From Coq Require Import Reals Lra Lia ZArith.
From Coq Require Import Floats.SpecFloat.
From Verif Require Import Base Index Outcome Sched Async Arith Launch Vector PartitionSpec VectorFacts LaunchFacts Matrix MatrixSpec MatrixFacts
  MatvecFacts Builder BuilderFacts Exec ExactSum LinAlg Planner PlannerFacts PlannerSetup Solvers PropsVector PropsMatrix PropsPlanner PropsSolver SolverFacts PropsCG PropsCGConv
  Float FloatSum PropsFloat FloatPlanner FloatCGSpec PropsFloatCG.
Set Implicit Arguments.
Local Open Scope R_scope.

Section Bits.
Variables p e : Z.
Hypothesis Hpe : format p e.
Variable lg : legion.
Hypothesis Hlg : legion_ok lg.
Variable red : nat -> list spec_float -> spec_float.
Notation A := (ieee p e).
Hypothesis Hred : legal_reduction A red.
Variable cs : list (setup_call spec_float).
Notation U := (unknowns lg cs).
Notation n := (length (sols_of cs)).
Notation store := (store loc spec_float).
Hypothesis Hn : (0 < n)%nat.
Notation iterate := (fiterate unknown).

(** [d] is the dot product of [f] and [g], summed in some order *)
Definition dotted (f g : unknown -> spec_float) (d : spec_float) : Prop := forall N : Prop,
  (forall u, In u U -> is_float p e (f u) /\ is_float p e (g u) /\ (N -> is_number (f u) /\ is_number (g u))) -> approx p e N (map (fun u => fvalue (f u) * fvalue (g u)) U) d.
Definition neg_one : spec_float := aneg A (a1 A).
(** one step: the product, two divisions, and one fused operation per entry of x, r and p *)
Definition bit_step (t t' : iterate) : Prop := exists Q sigma,
  (forall u, In u U -> Q u = block_product A lg cs (fun d z => f_p t (d, z)) (fst u) (snd u)) /\ dotted (f_p t) Q sigma /\
  (forall u, In u U -> f_x t' u = sf_fma p e (SFdiv p e (f_rho t) sigma) (f_p t u) (f_x t u)) /\
  (forall u, In u U -> f_r t' u = sf_fma p e (SFdiv p e (SFmul p e neg_one (f_rho t)) sigma) (Q u) (f_r t u)) /\
  dotted (f_r t') (f_r t') (f_rho t') /\
  (forall u, In u U -> f_p t' u = sf_fma p e (SFdiv p e (f_rho t') (f_rho t)) (f_p t u) (f_r t' u)).
Record bit_start (x0 b : unknown -> spec_float) (t : iterate) : Prop := mk_bit_start {
  bs_x : forall u, In u U -> f_x t u = x0 u;
  bs_r : forall u, In u U -> f_r t u = b u;
  bs_p : forall u, In u U -> f_p t u = b u;
  bs_rho : dotted (f_r t) (f_r t) (f_rho t) }.
Variables x0 b : unknown -> spec_float.

Lemma dotted_entry pl nw (Hw : working lg cs nw pl) s vi vj d : (vi < 2 + nw)%nat -> (vj < 2 + nw)%nat -> dot_value A lg red pl n s vi vj d -> dotted (entry pl s vi) (entry pl s vj) d.
Proof. intros Hv Hj D N HF. exact (@dot_value_approx p e Hpe N lg Hlg cs red Hred nw pl Hw s vi vj d Hv Hj HF D). Qed.
Lemma dotted_ext f g f' g' d : (forall u, In u U -> f' u = f u) -> (forall u, In u U -> g' u = g u) -> dotted f g d -> dotted f' g' d.
Proof.
  intros E1 E2 H N HF. erewrite map_ext_in; [apply (H N)|]; intros u Hu; [rewrite <- (E1 u Hu), <- (E2 u Hu); exact (HF u Hu)|]. cbn beta. rewrite (E1 u Hu), (E2 u Hu). reflexivity.
Qed.

Record bcg_inv (k : nat) (c : cg spec_float) (st : ist) (s : store) : Prop := mk_bcg_inv {
  bi_working : working lg cs 3 (cg_pl c);
  bi_neg1 : s (LFut (cg_neg1 c)) = neg_one /\ (cg_neg1 c < next_fut st)%nat;
  bi_len : length (cg_norms c) = S k;
  bi_norms : forall j f, nth_error (cg_norms c) j = Some f -> (f < next_fut st)%nat;
  bi_run : exists t : nat -> iterate, bit_start x0 b (t 0%nat) /\ (forall j, (j < k)%nat -> bit_step (t j) (t (S j))) /\
     (f_x (t k) = entry (cg_pl c) s SOL /\ f_r (t k) = entry (cg_pl c) s CG_R /\ f_p (t k) = entry (cg_pl c) s CG_P) /\
     forall j f, nth_error (cg_norms c) j = Some f -> s (LFut f) = f_rho (t j) }.
Ltac rng := unfold SOL, RHS, CG_P, CG_Q, CG_R in *; cbn [length]; lia.
Lemma bcg_new_inv st pl0 s : set_up lg cs st pl0 -> vectors_contain lg s (sols_of cs) x0 -> vectors_contain lg s (rhss_of cs) b -> wp (cg_new A lg red pl0) (bcg_inv 0) st s.
Proof.
  intros Hs Hx Hb. unfold cg_new, scalar_const. apply wp_bind. apply wp_scalar_task. intros s1 E1 F1.
  apply wp_bind. apply (@wp_allocate _ lg cs (next st) pl0 3 _ s1); [apply (@set_up_next _ lg cs st); [cbn; lia|exact Hs]|].
  intros pl st1 Hw C3 C4 N1. cbn [next next_fut] in N1. destruct (working_ready Hw) as [R _].
  assert (K : forall vs f, vectors_contain lg s vs f -> vectors_contain lg s1 vs f) by (intros vs f H i v q Hv Hq; rewrite F1 by discriminate; apply (H i v q Hv Hq)).
  assert (X1 : forall u, In u U -> entry pl s1 SOL u = x0 u) by (apply (contains_entry Hw); [rng|]; apply sol_contains; rewrite C3; apply K; exact Hx).
  assert (B1 : forall u, In u U -> entry pl s1 RHS u = b u) by (apply (contains_entry Hw); [rng|]; apply rhs_contains; rewrite C4; apply K; exact Hb).
  apply wp_bind. apply (wp_copy A Hlg R); [rng|rng|rng|]. intros s2 U2.
  assert (P2 : forall u, In u U -> entry pl s2 CG_P u = b u) by (intros u Hu; rewrite (upd_entry Hw _ U2 Hu); exact (B1 u Hu)).
  assert (B2 : forall u, In u U -> entry pl s2 RHS u = b u) by (intros u Hu; rewrite (@upd_other lg cs pl 3 Hw CG_P RHS _ _ _ u ltac:(rng) ltac:(rng) ltac:(rng) U2 Hu); exact (B1 u Hu)).
  assert (X2 : forall u, In u U -> entry pl s2 SOL u = x0 u) by (intros u Hu; rewrite (@upd_other lg cs pl 3 Hw CG_P SOL _ _ _ u ltac:(rng) ltac:(rng) ltac:(rng) U2 Hu); exact (X1 u Hu)).
  apply wp_bind. apply (wp_copy A Hlg R); [rng|rng|rng|]. intros s3 U3.
  assert (R3 : forall u, In u U -> entry pl s3 CG_R u = b u) by (intros u Hu; rewrite (upd_entry Hw _ U3 Hu); exact (B2 u Hu)).
  assert (P3 : forall u, In u U -> entry pl s3 CG_P u = b u) by (intros u Hu; rewrite (@upd_other lg cs pl 3 Hw CG_R CG_P _ _ _ u ltac:(rng) ltac:(rng) ltac:(rng) U3 Hu); exact (P2 u Hu)).
  assert (X3 : forall u, In u U -> entry pl s3 SOL u = x0 u) by (intros u Hu; rewrite (@upd_other lg cs pl 3 Hw CG_R SOL _ _ _ u ltac:(rng) ltac:(rng) ltac:(rng) U3 Hu); exact (X2 u Hu)).
  apply wp_bind. apply (wp_dot R); [exact Hn|rng|rng|]. intros f st4 s4 A1 A2 _ F4 D4. apply wp_ret.
  constructor; cbn [cg_pl cg_norms cg_neg1]; auto.
  - split; [|lia]. rewrite (frame_fut_old F4) by lia. rewrite (@upd_fut lg cs pl _ _ _ _ _ U3), (@upd_fut lg cs pl _ _ _ _ _ U2). exact E1.
  - intros [|j] g Hg; [|destruct j; discriminate]. injection Hg as <-. exact A2.
  - exists (fun _ => mk_fiterate (entry pl s4 SOL) (entry pl s4 CG_R) (entry pl s4 CG_P) (s4 (LFut f))). split; [|split; [intros j Hj; lia|split; [auto|]]].
    + constructor; cbn [f_x f_r f_p f_rho]; try (intros u Hu; rewrite (fr_entry pl _ u F4); auto).
      eapply dotted_ext; [| |exact (@dotted_entry pl 3 Hw s3 CG_R CG_R _ ltac:(rng) ltac:(rng) D4)]; intros u Hu; apply (fr_entry pl _ u F4).
    + intros [|j] g Hg; [|destruct j; discriminate]. injection Hg as <-. reflexivity.
Qed.
Lemma bcg_step_inv k c st s : bcg_inv k c st s -> wp (cg_step A lg red c) (bcg_inv (S k)) st s.
Proof.
  intros [Hw [E1 L1] HL HN HR]. unfold cg_step. set (pl := cg_pl c) in *. destruct (working_ready Hw) as [R _].
  apply wp_bind. apply (wp_matvec Hlg R); [rng|rng|rng|]. intros s1 U1.
  assert (K1 : forall vj u, (vj < 5)%nat -> vj <> CG_Q -> In u U -> entry pl s1 vj u = entry pl s vj u) by (intros vj u H1 H2 Hu; refine (@upd_other lg cs pl 3 Hw CG_Q vj _ s s1 u _ _ _ U1 Hu); rng).
  assert (F1 : forall f, s1 (LFut f) = s (LFut f)) by (intros f; apply (@upd_fut lg cs pl _ _ _ _ f U1)).
  apply wp_bind. apply (wp_dot R); [exact Hn|rng|rng|]. intros fp st2 s2 A1 A2 _ F2 D2.
  assert (K2 : forall vj u, entry pl s2 vj u = entry pl s1 vj u) by (intros vj u; apply (fr_entry pl vj u F2)).
  destruct (nth_error (cg_norms c) k) as [fo|] eqn:En; [|apply nth_error_None in En; lia].
  assert (No := HN k fo En).
  apply wp_bind. unfold back. eapply wp_lift; [rewrite (@back_snoc _ (cg_norms c) k fo HL En); reflexivity|].
  assert (Vo2 : s2 (LFut fo) = s (LFut fo)) by (rewrite (frame_fut_old F2) by lia; apply F1).
  assert (Vn2 : s2 (LFut (cg_neg1 c)) = neg_one) by (rewrite (frame_fut_old F2) by lia; rewrite F1; exact E1).
  apply wp_bind. apply (wp_axpy A Hlg R); [rng|rng|rng|rng|]. intros s3 U3.
  assert (K3 : forall vj u, (vj < 5)%nat -> vj <> SOL -> In u U -> entry pl s3 vj u = entry pl s2 vj u) by (intros vj u H1 H2 Hu; refine (@upd_other lg cs pl 3 Hw SOL vj _ s2 s3 u _ _ _ U3 Hu); rng).
  assert (F3 : forall f, s3 (LFut f) = s2 (LFut f)) by (intros f; apply (@upd_fut lg cs pl _ _ _ _ f U3)).
  apply wp_bind. apply (wp_axpy A Hlg R); [rng|rng|rng|rng|]. intros s4 U4.
  assert (K4 : forall vj u, (vj < 5)%nat -> vj <> CG_R -> In u U -> entry pl s4 vj u = entry pl s3 vj u) by (intros vj u H1 H2 Hu; refine (@upd_other lg cs pl 3 Hw CG_R vj _ s3 s4 u _ _ _ U4 Hu); rng).
  assert (F4 : forall f, s4 (LFut f) = s3 (LFut f)) by (intros f; apply (@upd_fut lg cs pl _ _ _ _ f U4)).
  apply wp_bind. apply (wp_dot R); [exact Hn|rng|rng|]. intros fn st5 s5 A3 A4 _ F5 D5.
  assert (K5 : forall vj u, entry pl s5 vj u = entry pl s4 vj u) by (intros vj u; apply (fr_entry pl vj u F5)).
  apply wp_bind. apply (wp_xpay A Hlg R); [rng|rng|rng|rng|]. intros s6 U6.
  assert (K6 : forall vj u, (vj < 5)%nat -> vj <> CG_P -> In u U -> entry pl s6 vj u = entry pl s5 vj u) by (intros vj u H1 H2 Hu; refine (@upd_other lg cs pl 3 Hw CG_P vj _ s5 s6 u _ _ _ U6 Hu); rng).
  assert (F6 : forall f, s6 (LFut f) = s5 (LFut f)) by (intros f; apply (@upd_fut lg cs pl _ _ _ _ f U6)).
  apply wp_ret.
  set (X := entry pl s SOL) in *. set (Rv := entry pl s CG_R) in *. set (Pv := entry pl s CG_P) in *. set (Q := entry pl s1 CG_Q).
  set (X' := entry pl s6 SOL). set (R' := entry pl s6 CG_R). set (P' := entry pl s6 CG_P).
  set (rho := s (LFut fo)) in *. set (sigma := s2 (LFut fp)) in *. set (rho' := s5 (LFut fn)) in *.
  assert (HQ : forall u, In u U -> Q u = block_product A lg cs (fun d z => Pv (d, z)) (fst u) (snd u)).
  { intros [i q] Hu. unfold Q. rewrite (upd_entry Hw _ U1 Hu). cbn [fst snd]. pose proof (proj1 (@in_unknowns_pts lg cs 3 pl Hw i q) Hu) as [Hi Hq]. rewrite (@matvec_value_block _ lg Hlg cs A 3 pl Hw _ i q Hi Hq). reflexivity. }
  assert (AP : dotted Pv Q sigma).
  { eapply dotted_ext; [| |exact (@dotted_entry pl 3 Hw s1 CG_P CG_Q _ ltac:(rng) ltac:(rng) D2)]; intros u Hu; [rewrite (K1 CG_P) by (first [rng|exact Hu])|]; reflexivity. }
  assert (HX' : forall u, In u U -> X' u = sf_fma p e (SFdiv p e rho sigma) (Pv u) (X u)).
  { intros u Hu. unfold X'. rewrite (K6 SOL) by (first [rng|exact Hu]). rewrite K5, (K4 SOL) by (first [rng|exact Hu]). rewrite (upd_entry Hw _ U3 Hu). cbn [ieee afma]. f_equal.
    - unfold alpha_of, fut. cbn [map get_alpha]. rewrite Vo2. reflexivity.
    - change (entry pl s2 CG_P u = Pv u). rewrite K2, (K1 CG_P) by (first [rng|exact Hu]). reflexivity.
    - change (entry pl s2 SOL u = X u). rewrite K2, (K1 SOL) by (first [rng|exact Hu]). reflexivity. }
  assert (HR4 : forall u, In u U -> entry pl s4 CG_R u = sf_fma p e (SFdiv p e (SFmul p e neg_one rho) sigma) (Q u) (Rv u)).
  { intros u Hu. rewrite (upd_entry Hw _ U4 Hu). cbn [afma ieee]. f_equal.
    - unfold alpha_of, fut. cbn [map get_alpha]. rewrite !F3, Vo2, Vn2. reflexivity.
    - change (entry pl s3 CG_Q u = Q u). rewrite (K3 CG_Q) by (first [rng|exact Hu]). rewrite K2. reflexivity.
    - change (entry pl s3 CG_R u = Rv u). rewrite (K3 CG_R) by (first [rng|exact Hu]). rewrite K2, (K1 CG_R) by (first [rng|exact Hu]). reflexivity. }
  assert (ER' : forall u, In u U -> R' u = entry pl s4 CG_R u) by (intros u Hu; unfold R'; rewrite (K6 CG_R) by (first [rng|exact Hu]); apply K5).
  assert (AR : dotted R' R' rho') by (eapply dotted_ext; [| |exact (@dotted_entry pl 3 Hw s4 CG_R CG_R _ ltac:(rng) ltac:(rng) D5)]; exact ER').
  assert (HP' : forall u, In u U -> P' u = sf_fma p e (SFdiv p e rho' rho) (Pv u) (R' u)).
  { intros u Hu. unfold P'. rewrite (upd_entry Hw _ U6 Hu). cbn [ieee afma]. f_equal.
    - unfold alpha_of, fut. cbn [map get_alpha]. rewrite (@frame_fut_old _ st2 s4 s5 fo F5) by lia. rewrite F4, F3, Vo2. reflexivity.
    - change (entry pl s5 CG_P u = Pv u). rewrite K5, (K4 CG_P), (K3 CG_P), K2, (K1 CG_P) by (first [rng|exact Hu]). reflexivity.
    - change (entry pl s5 CG_R u = R' u). rewrite (ER' u Hu). apply K5. }
  constructor; cbn [cg_pl cg_norms cg_neg1]; auto.
  - split; [|lia]. rewrite F6, (@frame_fut_old _ st2 s4 s5 _ F5) by lia. rewrite F4, F3. exact Vn2.
  - rewrite app_length, HL. cbn [length]. lia.
  - intros j f Hf. destruct (Nat.lt_ge_cases j (S k)) as [Hj|Hj].
    + rewrite nth_error_app1 in Hf by lia. specialize (HN j f Hf). lia.
    + rewrite nth_error_app2 in Hf by lia. destruct (j - length (cg_norms c))%nat as [|i] eqn:Ej; [|destruct i; discriminate]. injection Hf as <-. exact A4.
  - destruct HR as (t & T1 & T2 & (T3 & T4 & T5) & T6).
    set (t' := fun j => if (j <=? k)%nat then t j else mk_fiterate X' R' P' rho').
    assert (Et : forall j, (j <= k)%nat -> t' j = t j) by (intros j Hj; unfold t'; rewrite (proj2 (Nat.leb_le j k) Hj); reflexivity).
    assert (Es : t' (S k) = mk_fiterate X' R' P' rho') by (unfold t'; rewrite (proj2 (Nat.leb_gt (S k) k) ltac:(lia)); reflexivity).
    exists t'. split; [rewrite (Et 0%nat) by lia; exact T1|]. split; [|split].
    + intros j Hj. rewrite (Et j) by lia. destruct (Nat.eq_dec j k) as [->|Hne].
      * rewrite Es. exists Q, sigma. cbn [f_x f_r f_p f_rho]. rewrite T3, T4, T5, <- (T6 k fo En). split; [exact HQ|]. split; [exact AP|]. split; [exact HX'|]. split; [|split; [exact AR|exact HP']].
        intros u Hu. rewrite (ER' u Hu). exact (HR4 u Hu).
      * rewrite (Et (S j)) by lia. apply T2. lia.
    + rewrite Es. cbn [f_x f_r f_p]. auto.
    + intros j f Hf. destruct (Nat.lt_ge_cases j (S k)) as [Hj|Hj].
      * rewrite nth_error_app1 in Hf by lia. assert (N := HN j f Hf). rewrite (Et j) by lia. rewrite F6, (@frame_fut_old _ st2 s4 s5 _ F5), F4, F3, (frame_fut_old F2), F1 by lia. exact (T6 j f Hf).
      * rewrite nth_error_app2 in Hf by lia. rewrite HL in Hf. destruct (j - S k)%nat as [|i] eqn:Ej; [|destruct i; discriminate]. injection Hf as <-. assert (j = S k) by lia. subst j. rewrite Es. rewrite F6. reflexivity.
Qed.
Lemma bcg_run_inv st pl0 s k : set_up lg cs st pl0 -> vectors_contain lg s (sols_of cs) x0 -> vectors_contain lg s (rhss_of cs) b -> wp (cg_run A lg red pl0 k) (bcg_inv k) st s.
Proof.
  intros Hs Hx Hb. unfold cg_run. apply wp_bind. eapply wp_conseq; [apply bcg_new_inv; eassumption|]. intros c st' s' H.
  induction k as [|k IH]; cbn [cg_steps]; [apply wp_ret; exact H|]. apply wp_bind. eapply wp_conseq; [exact IH|]. intros c' st1 s1 H'. apply bcg_step_inv. exact H'.
Qed.
End Bits.
