(** PropsBreakdown: property C100 (what the solvers leave in float and double after a breakdown). *)
From Coq Require Import Lia ZArith.
From Coq Require Import Floats.SpecFloat.
From Verif Require Import Base Index Outcome Sched Async Arith Launch Vector PartitionSpec VectorFacts LaunchFacts Matrix MatrixSpec MatrixFacts
  MatvecFacts Builder BuilderFacts Exec ExactSum LinAlg Planner PlannerFacts PlannerSetup Solvers PropsVector PropsMatrix PropsPlanner PropsSolver SolverFacts
  PropsCG PropsCGConv BiCGSpec BiCGMath UndefFacts PropsBiCG Float FloatPlanner PropsFloat PropsFloatCG FloatBad.
Set Implicit Arguments.

(** ** Specification *)
(** every entry of the vectors [vs] is an infinity or not a number *)
Definition no_finite_entry (lg : legion) (s : store loc spec_float) (vs : list pvec) : Prop :=
  forall v q, In v vs -> In q (is_points lg (pv_space v)) -> ~ is_number (s (at_point v q)).

(** ** Proofs *)
Lemma wp_and_ends T X (m : M T X) Q st s x st' s' : wp m Q st s -> ends m st s x st' s' -> wp m (fun x2 st2 s2 => Q x2 st2 s2 /\ x2 = x /\ st2 = st' /\ forall l, s' l = s2 l) st s.
Proof.
  intros [x0 [lns0 [st0 [H1 [H2 H3]]]]] [lns [H Hx]]. assert (E := H). rewrite H1 in E. injection E as <- <- <-.
  exists x0, lns0, st0. split; [exact H1|]. split; [exact H2|]. split; [exact H3|]. split; [reflexivity|]. split; [reflexivity|]. intros l. apply (launches_end_effect H2 Hx).
Qed.
Lemma wp_bind_inverse T X Y (m : M T X) (f : X -> M T Y) (Q : Y -> ist -> store loc T -> Prop) st s :
  wp (bind m f) Q st s -> wp m (fun x st' s' => wp (f x) Q st' s') st s.
Proof.
  intros [y [lns [st2 [H1 [H2 H3]]]]]. unfold bind in H1. destruct (m st) as [[[x l1] st1]| | |] eqn:E1; try discriminate. cbn [obind] in H1.
  destruct (f x st1) as [[[y' l2] st2']| | |] eqn:E2; try discriminate. cbn [obind] in H1. injection H1 as -> <- ->.
  apply Forall_app in H2. destruct H2 as [G1 G2]. exists x, l1, st1. split; [exact E1|]. split; [exact G1|].
  exists y, l2, st2. split; [exact E2|]. split; [exact G2|]. rewrite effect_app in H3. exact H3.
Qed.

Section Run.
Variables p e : Z.
Variable lg : legion.
Hypothesis Hlg : legion_ok lg.
Variable red : nat -> list spec_float -> spec_float.
Notation A := (ieee p e).
Variable cs : list (setup_call spec_float).
Notation U := (unknowns lg cs).
Notation n := (length (sols_of cs)).
Notation store := (store loc spec_float).
Hypothesis Hn : 0 < n.
Lemma sol_entry nw (pl : planner spec_float) s i v q : working lg cs nw pl -> pl_sol pl = sols_of cs -> nth_error (sols_of cs) i = Some v -> In q (is_points lg (pv_space v)) ->
  In (i, q) U /\ entry pl s SOL (i, q) = s (at_point v q).
Proof.
  intros Hw C3 Hi Hq. assert (Hu : In (i, q) U).
  { apply in_unknowns. split; [apply nth_error_Some; congruence|]. unfold space_of. rewrite (nth_error_nth _ _ _ Hi). exact Hq. }
  split; [exact Hu|]. apply (in_unknowns_pts Hw) in Hu. destruct Hu as [Hl Hp]. assert (Hc : component pl SOL i (vec pl SOL i)) by (apply (component_iff Hw); [unfold SOL; lia|auto]).
  unfold component, get_vector, vector_row, SOL in Hc. cbn [obind] in Hc. rewrite C3, Hi in Hc. injection Hc as Hc. unfold entry, cell. cbn [fst snd]. unfold SOL. rewrite <- Hc. reflexivity.
Qed.
Lemma sol_entries nw (pl : planner spec_float) s s' : working lg cs nw pl -> pl_sol pl = sols_of cs -> (forall l, s' l = s l) -> badv lg cs pl s SOL -> no_finite_entry lg s' (sols_of cs).
Proof.
  intros Hw C3 E H v q Hv Hq. destruct (In_nth_error _ _ Hv) as [i Hi]. rewrite E. destruct (sol_entry s i q Hw C3 Hi Hq) as [Hu Eq]. rewrite <- Eq. exact (H (i, q) Hu).
Qed.

Lemma rhs_entry nw (pl : planner spec_float) s u : working lg cs nw pl -> pl_rhs pl = rhss_of cs -> In u U ->
  exists v, In v (rhss_of cs) /\ In (snd u) (is_points lg (pv_space v)) /\ entry pl s RHS u = s (at_point v (snd u)).
Proof.
  intros Hw C4 Hu. destruct u as [i q]. apply (in_unknowns_pts Hw) in Hu. destruct Hu as [Hl Hp]. destruct (working_ready Hw) as [R _].
  assert (Hc : component pl RHS i (vec pl RHS i)) by (apply (component_iff Hw); [unfold RHS; lia|auto]).
  exists (vec pl RHS i). unfold component, get_vector, vector_row, RHS in Hc. cbn [obind] in Hc. rewrite C4 in Hc.
  split; [|split].
  - destruct (nth_error (rhss_of cs) i) as [w|] eqn:E; [|discriminate]. injection Hc as Hc. unfold RHS. rewrite <- Hc. apply (nth_error_In _ _ E).
  - cbn [snd]. rewrite (vec_space R) by (unfold RHS; lia). exact Hp.
  - reflexivity.
Qed.
(** *** CG *)
Notation lost pl s := (badv lg cs pl s SOL).
Record cgb (k : nat) (c : cg spec_float) (st : ist) (s : store) : Prop := mk_cgb {
  cb_working : working lg cs 3 (cg_pl c);
  cb_sol : pl_sol (cg_pl c) = sols_of cs;
  cb_len : length (cg_norms c) = S k;
  cb_futs : forall i f, nth_error (cg_norms c) i = Some f -> f < next_fut st;
  cb_bad : forall i f, nth_error (cg_norms c) i = Some f -> i < k -> bad (s (LFut f)) -> lost (cg_pl c) s;
  cb_zero : forall i f, nth_error (cg_norms c) i = Some f -> is_zero (s (LFut f)) -> (S i < k -> lost (cg_pl c) s) /\ (S i = k -> badv lg cs (cg_pl c) s CG_P) }.
Ltac rng := unfold SOL, RHS, CG_P, CG_Q, CG_R, BI_P, BI_R, BI_RT, BI_U, BI_V, krylov_basis in *; cbn [length] in *; lia.
Lemma cgb_new st pl0 s : set_up lg cs st pl0 -> wp (cg_new A lg red pl0) (cgb 0) st s.
Proof.
  intros Hs. unfold cg_new, scalar_const. apply wp_bind. apply wp_scalar_task. intros s1 E1 F1.
  apply wp_bind. apply (@wp_allocate _ lg cs (next st) pl0 3 _ s1); [apply (@set_up_next _ lg cs st); [cbn; lia|exact Hs]|].
  intros pl st1 Hw C3 C4 N1. cbn [next next_fut] in N1.
  apply wp_bind. apply (@wpb_copy p e lg Hlg cs 3 pl Hw); [rng|rng|rng|]. intros s2 V2 K2.
  apply wp_bind. apply (@wpb_copy p e lg Hlg cs 3 pl Hw); [rng|rng|rng|]. intros s3 V3 K3.
  apply wp_bind. apply (@wpb_dot p e lg red cs 3 pl Hw); [exact Hn|rng|rng|]. intros f st4 s4 A1 A2 D4 K4. apply wp_ret.
  constructor; cbn [cg_pl cg_norms]; auto; intros [|i] g Hg; cbn [nth_error] in Hg; try (destruct i; discriminate); injection Hg as <-; [exact A2|intros; lia|intros _; split; lia].
Qed.
Lemma cgb_step k c st s : cgb k c st s -> wp (cg_step A lg red c) (cgb (S k)) st s.
Proof.
  intros [Hw C3 HL HN HB HZ]. unfold cg_step. set (pl := cg_pl c) in *.
  apply wp_bind. apply (@wpb_matvec p e lg Hlg cs 3 pl Hw); [rng|rng|rng|]. intros s1 K1.
  apply wp_bind. apply (@wpb_dot p e lg red cs 3 pl Hw); [exact Hn|rng|rng|]. intros fp st2 s2 A1 A2 _ K2.
  destruct (nth_error (cg_norms c) k) as [fo|] eqn:En; [|apply nth_error_None in En; lia]. assert (No := HN k fo En).
  apply wp_bind. unfold back. eapply wp_lift; [rewrite (@back_snoc _ (cg_norms c) k fo HL En); reflexivity|].
  apply wp_bind. apply (@wpb_axpy p e lg Hlg cs 3 pl Hw); [rng|rng|rng|rng|]. intros s3 V3 K3.
  apply wp_bind. apply (@wpb_axpy p e lg Hlg cs 3 pl Hw); [rng|rng|rng|rng|]. intros s4 V4 K4.
  apply wp_bind. apply (@wpb_dot p e lg red cs 3 pl Hw); [exact Hn|rng|rng|]. intros fn st5 s5 A3 A4 _ K5.
  apply wp_bind. apply (@wpb_xpay p e lg Hlg cs 3 pl Hw); [rng|rng|rng|rng|]. intros s6 V6 K6. apply wp_ret.
  unfold alpha_of, fut in V3, V6. cbn [map get_alpha] in V3, V6. cbn [ieee adiv] in V3, V6.
  assert (EF : forall f, f < next_fut st -> s6 (LFut f) = s (LFut f)) by (intros f Hf; fut_back; reflexivity).
  assert (EX : forall u, In u U -> entry pl s6 SOL u = sf_fma p e (SFdiv p e (s (LFut fo)) (s2 (LFut fp))) (entry pl s CG_P u) (entry pl s SOL u)).
  { intros u Hu. ent_back rng. rewrite (V3 u Hu). ent_back rng. fut_back. reflexivity. }
  assert (EP : forall u, In u U -> is_zero (s (LFut fo)) -> bad (entry pl s6 CG_P u)).
  { intros u Hu Z. rewrite (V6 u Hu). apply bad_fma_1. apply bad_div_zero. fut_back. exact Z. }
  clear V3 V4 V6 K1 K2 K3 K4 K5 K6.
  constructor; cbn [cg_pl cg_norms]; fold pl; auto.
  - rewrite app_length, HL. cbn [length]. lia.
  - intros i f Hi. destruct (Nat.lt_ge_cases i (S k)) as [Hk|Hk].
    + rewrite nth_error_app1 in Hi by lia. specialize (HN i f Hi). lia.
    + rewrite nth_error_app2 in Hi by lia. rewrite HL in Hi. destruct (i - S k) as [|j]; [|destruct j; discriminate]. injection Hi as <-. exact A4.
  - intros i f Hi Hk Hb u Hu. rewrite nth_error_app1 in Hi by lia. rewrite EF in Hb by apply (HN i f Hi). rewrite (EX u Hu).
    destruct (Nat.eq_dec i k) as [->|Ne]; [|apply bad_fma_3; apply (HB i f Hi ltac:(lia) Hb u Hu)].
    apply bad_fma_1. apply bad_div_l. congruence.
  - intros i f Hi Hz. split; intros Hk; rewrite nth_error_app1 in Hi by lia; rewrite EF in Hz by apply (HN i f Hi); destruct (HZ i f Hi Hz) as [Z1 Z2]; intros u Hu.
    + rewrite (EX u Hu). destruct (Nat.eq_dec (S i) k) as [E|Ne]; [apply bad_fma_2; apply (Z2 E u Hu)|apply bad_fma_3; apply (Z1 ltac:(lia) u Hu)].
    + apply EP; [exact Hu|]. replace i with k in Hi by lia. congruence.
Qed.
Lemma cgb_run st pl0 s k : set_up lg cs st pl0 -> wp (cg_run A lg red pl0 k) (cgb k) st s.
Proof.
  intros Hs. unfold cg_run. apply wp_bind. eapply wp_conseq; [apply cgb_new; exact Hs|]. intros c st' s' H.
  induction k as [|k IH]; cbn [cg_steps]; [apply wp_ret; exact H|]. apply wp_bind. eapply wp_conseq; [exact IH|]. intros c' st1 s1 H'. apply cgb_step. exact H'.
Qed.
(** entry by entry *)
Lemma cg_step_keeps c st s : working lg cs 3 (cg_pl c) -> cg_norms c <> [] ->
  wp (cg_step A lg red c) (fun c' _ s' => cg_pl c' = cg_pl c /\ cg_norms c' <> [] /\ forall u, In u U -> bad (entry (cg_pl c) s SOL u) -> bad (entry (cg_pl c) s' SOL u)) st s.
Proof.
  intros Hw Hne. unfold cg_step. set (pl := cg_pl c) in *.
  apply wp_bind. apply (@wpb_matvec p e lg Hlg cs 3 pl Hw); [rng|rng|rng|]. intros s1 K1.
  apply wp_bind. apply (@wpb_dot p e lg red cs 3 pl Hw); [exact Hn|rng|rng|]. intros fp st2 s2 A1 A2 _ K2.
  apply wp_bind. apply wp_back_any; [exact Hne|]. intros fo.
  apply wp_bind. apply (@wpb_axpy p e lg Hlg cs 3 pl Hw); [rng|rng|rng|rng|]. intros s3 V3 K3.
  apply wp_bind. apply (@wpb_axpy p e lg Hlg cs 3 pl Hw); [rng|rng|rng|rng|]. intros s4 V4 K4.
  apply wp_bind. apply (@wpb_dot p e lg red cs 3 pl Hw); [exact Hn|rng|rng|]. intros fn st5 s5 A3 A4 _ K5.
  apply wp_bind. apply (@wpb_xpay p e lg Hlg cs 3 pl Hw); [rng|rng|rng|rng|]. intros s6 V6 K6. apply wp_ret. cbn [cg_pl cg_norms].
  split; [reflexivity|]. split; [intros E; apply app_eq_nil in E; destruct E; discriminate|]. intros u Hu Hb. ent_back rng. rewrite (V3 u Hu). apply bad_fma_3. ent_back rng. exact Hb.
Qed.
(** *** BiCGStab *)
Hypothesis Hone : is_number (a1 A).
Definition hist (l : list scalar) (k : nat) (st : ist) : Prop := length l = S k /\ forall i f, nth_error l i = Some f -> f < next_fut st.
Lemma hist_last l k st : hist l k st -> exists f, nth_error l k = Some f /\ f < next_fut st /\ rev l = f :: rev (firstn k l).
Proof. intros [HL HN]. destruct (nth_error l k) as [f|] eqn:E; [|apply nth_error_None in E; lia]. exists f. split; [reflexivity|]. split; [apply (HN k f E)|]. apply back_snoc; assumption. Qed.
Lemma nth_snoc (l : list scalar) x i f : nth_error (l ++ [x]) i = Some f -> (i < length l /\ nth_error l i = Some f) \/ (i = length l /\ f = x).
Proof.
  intros H. destruct (Nat.lt_ge_cases i (length l)) as [L|L]; [left; rewrite nth_error_app1 in H by exact L; auto|right]. rewrite nth_error_app2 in H by exact L.
  destruct (i - length l) as [|j] eqn:E; [|destruct j; discriminate]. injection H as <-. split; [lia|reflexivity].
Qed.
Lemma hist_snoc l k st st' x : hist l k st -> next_fut st <= next_fut st' -> x < next_fut st' -> hist (l ++ [x]) (S k) st'.
Proof.
  intros [HL HN] L1 L2. split; [rewrite app_length, HL; cbn; lia|]. intros i f H. apply nth_snoc in H. destruct H as [[_ H]|[_ ->]]; [apply HN in H; lia|exact L2].
Qed.
Variable Z0 : Prop.
Hypothesis HZ0 : Z0 -> legal_reduction A red.
Record bib (k : nat) (c : bicg spec_float) (st : ist) (s : store) : Prop := mk_bib {
  bb_working : working lg cs 5 (bi_pl c);
  bb_sol : pl_sol (bi_pl c) = sols_of cs;
  bb_rho : hist (bi_rho c) k st;
  bb_alpha : hist (bi_alpha c) k st;
  bb_omega : hist (bi_omega c) k st;
  bb_bad : forall i f, nth_error (bi_rho c) i = Some f \/ nth_error (bi_alpha c) i = Some f \/ nth_error (bi_omega c) i = Some f -> bad (s (LFut f)) -> lost (bi_pl c) s;
  bb_zero : forall i f, nth_error (bi_rho c) i = Some f \/ nth_error (bi_omega c) i = Some f -> is_zero (s (LFut f)) -> i < k -> lost (bi_pl c) s;
  bb_rt : Z0 -> zerov lg cs (bi_pl c) s BI_RT /\ (0 < k -> lost (bi_pl c) s) }.
Tactic Notation "bsc" ident(s) ident(V) ident(K) := apply wp_bind; match goal with Hw : working _ _ 5 ?pl |- _ => apply (@wpb_scalar pl) end; intros s V K; cbn [map on2 on1] in V.
Tactic Notation "bdot" ident(f) ident(st) ident(s) ident(D) ident(K) := apply wp_bind; match goal with Hw : working _ _ 5 ?pl |- _ => apply (@wpb_dot p e lg red cs 5 pl Hw) end; [exact Hn|rng|rng|intros f st s ? ? D K].
Tactic Notation "bmv" ident(s) ident(K) := apply wp_bind; match goal with Hw : working _ _ 5 ?pl |- _ => apply (@wpb_matvec p e lg Hlg cs 5 pl Hw) end; [rng|rng|rng|intros s K].
Tactic Notation "bax" ident(s) ident(V) ident(K) := apply wp_bind; match goal with Hw : working _ _ 5 ?pl |- _ => apply (@wpb_axpy p e lg Hlg cs 5 pl Hw) end; [rng|rng|rng|rng|intros s V K].
Tactic Notation "bxp" ident(s) ident(V) ident(K) := apply wp_bind; match goal with Hw : working _ _ 5 ?pl |- _ => apply (@wpb_xpay p e lg Hlg cs 5 pl Hw) end; [rng|rng|rng|rng|intros s V K].
Lemma bib_new st pl0 s : set_up lg cs st pl0 -> (Z0 -> vectors_all is_zero lg s (rhss_of cs)) -> wp (bicg_new A lg pl0) (bib 0) st s.
Proof.
  intros Hs Hz. unfold bicg_new, scalar_const.
  apply wp_bind. apply wp_scalar_task. intros s1 E1 F1. apply wp_bind. apply wp_scalar_task. intros s2 E2 F2. apply wp_bind. apply wp_scalar_task. intros s3 E3 F3. cbn [next next_fut] in *.
  assert (E2' : s3 (LFut (S (next_fut st))) = a0 A) by (rewrite F3 by (intros C; injection C; lia); exact E2).
  apply wp_bind. apply (@wp_allocate _ lg cs _ pl0 5 _ s3); [apply (@set_up_next _ lg cs st); [cbn; lia|exact Hs]|]. intros pl st1 Hw C3 C4 N1. cbn [next next_fut] in N1.
  apply wp_bind. apply (@wpb_copy p e lg Hlg cs 5 pl Hw); [rng|rng|rng|]. intros s4 V4 K4.
  apply wp_bind. apply (@wpb_copy p e lg Hlg cs 5 pl Hw); [rng|rng|rng|]. intros s5 V5 K5.
  apply wp_bind. apply (@wpb_zero p e lg Hlg cs 5 pl Hw); [rng|]. intros s6 K6.
  apply wp_bind. apply (@wpb_zero p e lg Hlg cs 5 pl Hw); [rng|]. intros s7 K7. apply wp_ret.
  assert (H1 : s7 (LFut (S (S (next_fut st)))) = a1 A) by (fut_back; exact E3). assert (H2 : s7 (LFut (S (next_fut st))) = a0 A) by (fut_back; exact E2').
  assert (O : forall x i f, x < next_fut st1 -> nth_error [x] i = Some f -> f = x) by (intros x [|i] f _ H; [injection H as <-; reflexivity|destruct i; discriminate]).
  assert (Hh : forall x, x < next_fut st1 -> hist [x] 0 st1) by (intros x Hx; split; [reflexivity|intros i f H; apply O in H; [subst; exact Hx|exact Hx]]).
  constructor; cbn [bi_pl bi_rho bi_alpha bi_omega]; auto; try (apply Hh; lia).
  - intros i f Hf Hb. exfalso. apply Hb. destruct Hf as [Hf|[Hf|Hf]]; apply O in Hf; try lia; subst f; rewrite ?H1, ?H2; first [exact Hone|exact I].
  - intros i f _ _ Hi. lia.
  - intros z. split; [|lia]. intros u Hu. ent_back rng. rewrite (V5 u Hu). ent_back rng. destruct (@rhs_entry 5 pl s3 u Hw C4 Hu) as (v & I1 & I2 & ->).
    rewrite F3, F2, F1 by discriminate. apply (Hz z v (snd u) I1 I2).
Qed.
Lemma bib_step k c st s : bib k c st s -> wp (bicg_step A lg red c) (fun c' st' s' => bib (S k) c' st' s' /\ bi_pl c' = bi_pl c /\ forall u, In u U -> bad (entry (bi_pl c) s SOL u) -> bad (entry (bi_pl c) s' SOL u)) st s.
Proof.
  intros [Hw C3 Hr Ha Ho HB HZ HRT]. unfold bicg_step. set (pl := bi_pl c) in *. unfold scalar_div, scalar_mul, scalar_neg.
  destruct (hist_last Hr) as (fr & Nr & Lr & Er). destruct (hist_last Ha) as (fa & Na & La & Ea). destruct (hist_last Ho) as (fo & No & Lo & Eo).
  bdot rn st1 s1 D1 K1. apply wp_bind. unfold back at 1. eapply wp_lift; [rewrite Er; reflexivity|]. bsc s2 V2 K2.
  apply wp_bind. unfold back at 1. eapply wp_lift; [rewrite Ea; reflexivity|]. apply wp_bind. unfold back at 1. eapply wp_lift; [rewrite Eo; reflexivity|].
  bsc s3 V3 K3. bsc s4 V4 K4. bsc s5 V5 K5. bax s6 V6 K6. bxp s7 V7 K7. bmv s8 K8. bdot ft st9 s9 D9 K9.
  apply wp_bind. apply wp_back_snoc. bax s10 V10 K10. bsc s11 V11 K11. bmv s12 K12. bdot f13 st13 s13 D13 K13. bdot f14 st14 s14 D14 K14. bsc s15 V15 K15.
  apply wp_bind. apply wp_back_snoc. bax s16 V16 K16. apply wp_bind. apply wp_back_snoc. bax s17 V17 K17. bsc s18 V18 K18. bax s19 V19 K19. apply wp_ret.
  cbn [next next_fut] in *.
  unfold alpha_of, fut in V7, V16, V17. cbn [map get_alpha] in V7, V16, V17. cbn [ieee adiv amul] in V2, V3, V4, V7, V11, V15, V16, V17.
  assert (EF : forall f, f < next_fut st -> s19 (LFut f) = s (LFut f)) by (intros f Hf; fut_back; reflexivity).
  assert (ERN : s19 (LFut rn) = s1 (LFut rn)) by (fut_back; reflexivity).
  assert (EAN : s19 (LFut (next_fut st9)) = SFdiv p e (s1 (LFut rn)) (s9 (LFut ft))) by (fut_back; rewrite V11; fut_back; reflexivity).
  assert (EON : s19 (LFut (next_fut st14)) = s15 (LFut (next_fut st14))) by (fut_back; reflexivity).
  assert (EP : forall u, In u U -> bad (SFmul p e (SFdiv p e (s1 (LFut rn)) (s (LFut fr))) (SFdiv p e (s (LFut fa)) (s (LFut fo)))) -> bad (entry pl s15 BI_P u)).
  { intros u Hu Hb. ent_back rng. rewrite (V7 u Hu). apply bad_fma_1. fut_back. rewrite V4. fut_back. rewrite V3. fut_back. rewrite V2. fut_back. exact Hb. }
  assert (EX : forall u, In u U -> entry pl s19 SOL u = sf_fma p e (s15 (LFut (next_fut st14))) (entry pl s16 BI_R u) (sf_fma p e (SFdiv p e (s1 (LFut rn)) (s9 (LFut ft))) (entry pl s15 BI_P u) (entry pl s SOL u))).
  { intros u Hu. rewrite (proj1 K19 SOL u) by (first [rng|assumption]). rewrite (proj1 K18). rewrite (V17 u Hu). rewrite (V16 u Hu). f_equal; [fut_back; reflexivity|]. f_equal; [fut_back; rewrite V11; fut_back; reflexivity|]. ent_back rng. reflexivity. }
  assert (ERT : forall u, In u U -> entry pl s8 BI_RT u = entry pl s BI_RT u) by (intros u Hu; ent_back rng; reflexivity).
  assert (ERT2 : forall u, In u U -> entry pl s19 BI_RT u = entry pl s BI_RT u) by (intros u Hu; ent_back rng; reflexivity).
  clear V2 V3 V4 V5 V6 V7 V10 V11 V15 V16 V17 V18 V19 K1 K2 K3 K4 K5 K6 K7 K8 K9 K10 K11 K12 K13 K14 K15 K16 K17 K18 K19.
  assert (KL : lost pl s -> lost pl s19) by (intros Hk u Hu; rewrite (EX u Hu); apply bad_fma_3; apply bad_fma_3; apply (Hk u Hu)).
  assert (KA : bad (SFdiv p e (s1 (LFut rn)) (s9 (LFut ft))) -> lost pl s19) by (intros Hk u Hu; rewrite (EX u Hu); apply bad_fma_3; apply bad_fma_1; exact Hk).
  cbn [bi_pl]. split; [|split; [reflexivity|intros u Hu Hk; rewrite (EX u Hu); apply bad_fma_3; apply bad_fma_3; exact Hk]].
  constructor; cbn [bi_pl bi_rho bi_alpha bi_omega]; fold pl; auto.
  - eapply hist_snoc; [exact Hr| |]; cbn [next next_fut]; lia.
  - eapply hist_snoc; [exact Ha| |]; cbn [next next_fut]; lia.
  - eapply hist_snoc; [exact Ho| |]; cbn [next next_fut]; lia.
  - intros i f Hf Hb.
    assert (G : (nth_error (bi_rho c) i = Some f \/ nth_error (bi_alpha c) i = Some f \/ nth_error (bi_omega c) i = Some f) \/ f = rn \/ f = next_fut st9 \/ f = next_fut st14).
    { destruct Hf as [Hf|[Hf|Hf]]; apply nth_snoc in Hf; tauto. }
    destruct G as [G|[->|[->| ->]]].
    + apply KL. apply (HB i f G). rewrite <- EF; [exact Hb|]. destruct G as [G|[G|G]]; [apply (proj2 Hr i f G)|apply (proj2 Ha i f G)|apply (proj2 Ho i f G)].
    + apply KA. apply bad_div_l. rewrite <- ERN. exact Hb.
    + apply KA. rewrite <- EAN. exact Hb.
    + intros u Hu. rewrite (EX u Hu). apply bad_fma_1. rewrite <- EON. exact Hb.
  - intros i f Hf Hz Hi.
    assert (G : (i < S k /\ nth_error (bi_rho c) i = Some f) \/ (i < S k /\ nth_error (bi_omega c) i = Some f)).
    { destruct Hf as [Hf|Hf]; apply nth_snoc in Hf; rewrite ?(proj1 Hr), ?(proj1 Ho) in Hf; (destruct Hf as [[L Hf]|[L Hf]]; [auto|lia]). }
    assert (Lf : f < next_fut st) by (destruct G as [[_ G]|[_ G]]; [apply (proj2 Hr i f G)|apply (proj2 Ho i f G)]). rewrite EF in Hz by exact Lf.
    destruct (Nat.eq_dec i k) as [->|Ne]; [|apply KL; apply (HZ i f); [tauto|exact Hz|lia]].
    intros u Hu. rewrite (EX u Hu). apply bad_fma_3. apply bad_fma_2. apply EP; [exact Hu|]. destruct G as [[_ G]|[_ G]].
    + apply bad_mul_l. apply bad_div_zero. congruence.
    + apply bad_mul_r. apply bad_div_zero. congruence.
  - intros z. destruct (HRT z) as [Z1 _]. split; [intros u Hu; rewrite (ERT2 u Hu); apply (Z1 u Hu)|]. intros _. apply KA. apply bad_div_zn.
    refine (@zn_dot_value p e lg Hlg red (HZ0 z) cs 5 pl Hw s8 BI_RT BI_V _ _ _ _ D9); [rng|rng|]. intros u Hu. left. rewrite (ERT u Hu). apply (Z1 u Hu).
Qed.
Lemma bib_run st pl0 s k : set_up lg cs st pl0 -> (Z0 -> vectors_all is_zero lg s (rhss_of cs)) -> wp (bicg_run A lg red pl0 k) (bib k) st s.
Proof.
  intros Hs Hz. unfold bicg_run. apply wp_bind. eapply wp_conseq; [apply bib_new; [exact Hs|exact Hz]|]. intros c st' s' H.
  induction k as [|k IH]; cbn [bicg_steps]; [apply wp_ret; exact H|]. apply wp_bind. eapply wp_conseq; [exact IH|]. intros c' st1 s1 H'. eapply wp_conseq; [apply bib_step; exact H'|]. intros c2 st2 s2 H2. apply H2.
Qed.
(** *** GMRES *)
Section Gmres.
Variable m : nat.
Variable pl : planner spec_float.
Hypothesis Hw : working lg cs (m + 1) pl.
Notation kb := krylov_basis.
Notation badm s vi := (badv lg cs pl s vi).
Notation val s f := (s (LFut f)).
(** what an operation does not spoil *)
Definition keeps (P : nat -> Prop) (st st' : ist) (s s' : store) : Prop :=
  next_fut st <= next_fut st' /\ (forall f, f < next_fut st -> val s' f = val s f) /\ forall vi u, vi < m + 3 -> P vi -> In u U -> bad (entry pl s vi u) -> bad (entry pl s' vi u).
Lemma keeps_trans P st st1 st2 s s1 s2 : keeps P st st1 s s1 -> keeps P st1 st2 s1 s2 -> keeps P st st2 s s2.
Proof. intros (A1 & A2 & A3) (B1 & B2 & B3). split; [lia|]. split; [intros f Hf; rewrite B2, A2 by lia; reflexivity|intros vi u Hv Hp Hu Hb; apply B3; auto]. Qed.
Lemma keeps_but (P : nat -> Prop) vi st s s' : same_but lg cs (m + 1) pl vi s s' -> (P vi -> forall u, In u U -> bad (entry pl s vi u) -> bad (entry pl s' vi u)) -> keeps P st st s s'.
Proof.
  intros [K1 K2] H. split; [lia|]. split; [intros f _; apply K2|]. intros vj u Hv Hp Hu Hb. destruct (Nat.eq_dec vj vi) as [->|Ne]; [apply H; auto|]. rewrite K1 by (auto; lia). exact Hb.
Qed.
Lemma keeps_old (P : nat -> Prop) st st' s s' : same_old pl st s s' -> next_fut st <= next_fut st' -> keeps P st st' s s'.
Proof. intros [K1 K2] H. split; [exact H|]. split; [exact K2|]. intros vj u Hv Hp Hu Hb. rewrite K1. exact Hb. Qed.
Lemma keeps_refl P st s : keeps P st st s s.
Proof. split; [lia|]. split; [reflexivity|auto]. Qed.
Lemma keeps_weak (P P' : nat -> Prop) st st' s s' : (forall vi, P' vi -> P vi) -> keeps P st st' s s' -> keeps P' st st' s s'.
Proof. intros H (A1 & A2 & A3). split; [exact A1|]. split; [exact A2|]. intros vi u Hv Hp. apply A3; auto. Qed.
Lemma keeps_bad P vi st st' s s' : keeps P st st' s s' -> vi < m + 3 -> P vi -> badm s vi -> badm s' vi.
Proof. intros (_ & _ & H) Hv Hp Hb u Hu. apply H; auto. Qed.
Lemma seq_split k n (done : list nat) y rest : seq k n = done ++ y :: rest -> y = k + length done /\ length done < n.
Proof.
  intros E. assert (L := f_equal (@length _) E). rewrite seq_length, app_length in L. cbn [length] in L.
  assert (E2 := f_equal (fun l => nth (length done) l 0) E). cbv beta in E2. rewrite app_nth2, Nat.sub_diag in E2 by lia. cbn [nth] in E2.
  rewrite seq_nth in E2 by lia. lia.
Qed.
Lemma set_h_other h i j x i' j' : i' <> i \/ j' <> j -> set_h h i j x i' j' = h i' j'.
Proof. intros H. unfold set_h. destruct (Nat.eqb_spec i' i); destruct (Nat.eqb_spec j' j); cbn; try reflexivity. lia. Qed.
Lemma set_h_same h i j x : set_h h i j x i j = x.
Proof. unfold set_h. rewrite !Nat.eqb_refl. reflexivity. Qed.
Lemma bad_opp x : bad x -> bad (SFopp x).
Proof. unfold bad. destruct x; cbn; tauto. Qed.
Lemma orth_bad j st s h : j < m ->
  wp (gmres_orthogonalise A lg red pl j h) (fun h' st' s' => keeps (fun _ => True) st st' s s' /\ (forall i j', j' <> j \/ j < i -> h' i j' = h i j') /\
    forall k, k <= j -> h' k j < next_fut st' /\ (bad (val s' (h' k j)) -> badm s' (kb (j + 1)))) st s.
Proof.
  intros Hj. unfold gmres_orthogonalise.
  eapply wp_conseq; [apply (@wp_mfold _ nat _ _ (fun done h' st' s' => keeps (fun _ => True) st st' s s' /\ (forall i j', j' <> j \/ j < i -> h' i j' = h i j') /\
    forall k, k < length done -> h' k j < next_fut st' /\ (bad (val s' (h' k j)) -> badm s' (kb (j + 1)))) (seq 0 (j + 1)))|].
  - intros done k rest h' st' s' E (G1 & G2 & G3). apply seq_split in E. destruct E as [Ek L]. cbn [Nat.add] in Ek.
    apply wp_bind. apply (@wpb_dot p e lg red cs (m + 1) pl Hw); [exact Hn|rng|rng|]. intros f st1 s1 L1 L2 _ K1.
    rewrite set_h_same. unfold scalar_neg.
    apply wp_bind. apply (@wpb_scalar pl). intros s2 V2 K2. cbn [map on1 ieee aneg] in V2.
    apply wp_bind. apply (@wpb_axpy p e lg Hlg cs (m + 1) pl Hw); [rng|rng|rng|rng|]. intros s3 V3 K3. apply wp_ret.
    unfold alpha_of, fut in V3. cbn [map get_alpha] in V3.
    assert (Kx : keeps (fun _ => True) st' (next st1) s' s3).
    { eapply keeps_trans; [apply (keeps_old (fun _ => True) st1 K1); lia|]. eapply keeps_trans; [apply (keeps_old (fun _ => True) (next st1) K2); cbn [next next_fut]; lia|].
      apply (keeps_but (fun _ => True) (next st1) K3). intros _ u Hu Hb. rewrite (V3 u Hu). apply bad_fma_3. exact Hb. }
    split; [eapply keeps_trans; [exact G1|exact Kx]|]. split; [intros i j' Hij; rewrite set_h_other by lia; apply G2; exact Hij|].
    intros k' Hk'. rewrite app_length in Hk'. cbn [length] in Hk'. destruct (Nat.eq_dec k' k) as [->|Ne].
    + rewrite set_h_same. cbn [next next_fut]. split; [lia|]. intros Hb u Hu. rewrite (V3 u Hu). apply bad_fma_1. rewrite V2. apply bad_opp.
      rewrite <- (proj2 K2) by lia. rewrite <- (proj2 K3). exact Hb.
    + rewrite set_h_other by lia. destruct (G3 k' ltac:(lia)) as [H1 H2]. split; [destruct Kx; lia|]. intros Hb. apply (keeps_bad Kx); [rng|exact I|]. apply H2.
      rewrite <- (proj1 (proj2 Kx)) by exact H1. exact Hb.
  - cbn [length]. split; [apply keeps_refl|]. split; [reflexivity|lia].
  - intros h' st' s' (G1 & G2 & G3). split; [exact G1|]. split; [exact G2|]. intros k Hk. apply G3. rewrite seq_length. lia.
Qed.
Lemma bad_rsqrt x : zero_or_nan (asqrt A x) -> bad (adiv A (a1 A) (asqrt A x)).
Proof. cbn [ieee adiv]. apply bad_div_zn. Qed.
(** a column of the recorded inner products *)
Definition column (h : nat -> nat -> scalar) (j : nat) (st : ist) (s : store) : Prop :=
  (forall k, k <= j + 1 -> h k j < next_fut st) /\
  (j + 1 < m -> (forall k, k <= j -> bad (val s (h k j)) -> badm s (kb (j + 1))) /\ (zero_or_nan (val s (h (j + 1) j)) -> badm s (kb (j + 1)))).
Lemma column_keeps P h h' j st st' s s' : keeps P st st' s s' -> P (kb (j + 1)) -> j < m -> (forall k, k <= j + 1 -> h' k j = h k j) -> column h j st s -> column h' j st' s'.
Proof.
  intros K HP Hj E [H1 H2]. assert (K1 := proj1 K). assert (K2 := proj1 (proj2 K)).
  split; [intros k Hk; rewrite E by exact Hk; specialize (H1 k Hk); lia|]. intros L. destruct (H2 L) as [H3 H4]. split.
  - intros k Hk Hb. rewrite E in Hb by lia. rewrite K2 in Hb by (apply H1; lia). apply (keeps_bad K); [rng|exact HP|]. apply (H3 k Hk Hb).
  - intros Hb. rewrite E in Hb by lia. rewrite K2 in Hb by (apply H1; lia). apply (keeps_bad K); [rng|exact HP|]. apply (H4 Hb).
Qed.
Lemma arnoldi_bad j st s h : j < m ->
  wp (gmres_arnoldi A lg red pl m h j) (fun h' st' s' => keeps (fun vi => vi <> kb (j + 1)) st st' s s' /\ (forall i j', j' <> j -> h' i j' = h i j') /\ column h' j st' s') st s.
Proof.
  intros Hj. unfold gmres_arnoldi, scalar_sqrt, scalar_rsqrt.
  apply wp_bind. apply (@wpb_matvec p e lg Hlg cs (m + 1) pl Hw); [rng|rng|rng|]. intros s1 K1.
  assert (G1 : keeps (fun vi => vi <> kb (j + 1)) st st s s1) by (apply (keeps_but _ st K1); congruence).
  apply wp_bind. eapply wp_conseq; [apply (@orth_bad j st s1 h Hj)|]. intros h2 st2 s2 (G2 & E2 & C2).
  assert (G2' : keeps (fun vi => vi <> kb (j + 1)) st st2 s1 s2) by (revert G2; apply keeps_weak; auto).
  apply wp_bind. apply (@wpb_dot p e lg red cs (m + 1) pl Hw); [exact Hn|rng|rng|]. intros f st3 s3 L1 L2 _ K3.
  apply wp_bind. apply (@wpb_scalar pl). intros s4 V4 K4. cbn [map on1] in V4.
  assert (G4 : keeps (fun _ => True) st2 (next st3) s2 s4).
  { eapply keeps_trans; [apply (keeps_old (fun _ => True) st3 K3); lia|]. apply (keeps_old (fun _ => True) (next st3) K4). cbn [next next_fut]. lia. }
  assert (C4 : forall k, k <= j -> h2 k j < next_fut (next st3) /\ (bad (val s4 (h2 k j)) -> badm s4 (kb (j + 1)))).
  { intros k Hk. destruct (C2 k Hk) as [H1 H2]. split; [destruct G4; lia|]. intros Hb. apply (keeps_bad G4); [rng|exact I|]. apply H2. rewrite <- (proj1 (proj2 G4)) by exact H1. exact Hb. }
  destruct (Nat.ltb_spec (j + 1) m) as [L|L].
  - apply wp_bind. apply (@wpb_scalar pl). intros s5 V5 K5. cbn [map on1] in V5.
    apply wp_bind. apply (@wpb_scal p e lg Hlg cs (m + 1) pl Hw); [rng|]. intros s6 V6 K6. apply wp_ret.
    assert (G6 : keeps (fun _ => True) (next st3) (next (next st3)) s4 s6).
    { eapply keeps_trans; [apply (keeps_old (fun _ => True) (next (next st3)) K5); cbn [next next_fut]; lia|]. apply (keeps_but _ _ K6). intros _ u Hu Hb. rewrite (V6 u Hu). apply bad_mul_r. exact Hb. }
    split; [|split].
    + eapply keeps_trans; [exact G1|]. eapply keeps_trans; [exact G2'|]. apply (keeps_weak (P := fun _ => True)); [auto|]. eapply keeps_trans; [exact G4|exact G6].
    + intros i j' Hij. rewrite set_h_other by lia. apply E2. auto.
    + split.
      * intros k Hk. cbn [next next_fut]. destruct (Nat.eq_dec k (j + 1)) as [->|Ne]; [rewrite set_h_same; cbn [next next_fut]; lia|]. rewrite set_h_other by lia. destruct (C4 k ltac:(lia)) as [H _]. cbn [next next_fut] in H. lia.
      * intros _. split.
        -- intros k Hk Hb. rewrite set_h_other in Hb by lia. destruct (C4 k Hk) as [H1 H2]. rewrite (proj1 (proj2 G6)) in Hb by exact H1. apply (keeps_bad G6); [rng|exact I|]. apply H2. exact Hb.
        -- rewrite set_h_same. intros Hz u Hu. rewrite (V6 u Hu). apply bad_mul_l. rewrite V5. rewrite (proj2 K4) by lia. apply bad_rsqrt. rewrite <- V4.
           rewrite (proj2 K6) in Hz. rewrite (proj2 K5) in Hz by (cbn [next next_fut]; lia). exact Hz.
  - apply wp_ret. split; [|split].
    + eapply keeps_trans; [exact G1|]. eapply keeps_trans; [exact G2'|]. apply (keeps_weak (P := fun _ => True)); [auto|exact G4].
    + intros i j' Hij. rewrite set_h_other by lia. apply E2. auto.
    + split; [|lia]. intros k Hk. destruct (Nat.eq_dec k (j + 1)) as [->|Ne]; [rewrite set_h_same; cbn [next next_fut]; lia|]. rewrite set_h_other by lia. apply C4. lia.
Qed.
Lemma update_bad f st s : wp (mfor (seq 0 m) (fun j => pl_axpy A lg pl SOL [f] (kb j)))
  (fun _ st' s' => keeps (fun _ => True) st st' s s' /\ forall j, j < m -> badm s (kb j) -> badm s' SOL) st s.
Proof.
  eapply wp_conseq; [apply (@wp_mfor _ nat _ (fun done st' s' => keeps (fun _ => True) st st' s s' /\ forall j, j < length done -> badm s (kb j) -> badm s' SOL) (seq 0 m))|].
  - intros done k rest st' s' E [G1 G2]. apply seq_split in E. destruct E as [Ek L]. cbn [Nat.add] in Ek.
    apply (@wpb_axpy p e lg Hlg cs (m + 1) pl Hw); [rng|rng|rng|rng|]. intros s2 V2 K2.
    assert (G : keeps (fun _ => True) st' st' s' s2) by (apply (keeps_but _ st' K2); intros _ u Hu Hb; rewrite (V2 u Hu); apply bad_fma_3; exact Hb).
    split; [eapply keeps_trans; [exact G1|exact G]|]. intros j Hj Hb. rewrite app_length in Hj. cbn [length] in Hj. destruct (Nat.eq_dec j k) as [->|Ne].
    + intros u Hu. rewrite (V2 u Hu). apply bad_fma_2. apply (keeps_bad G1); [rng|exact I|exact Hb|exact Hu].
    + apply (keeps_bad G); [rng|exact I|]. apply (G2 j); [lia|exact Hb].
  - cbn [length]. split; [apply keeps_refl|lia].
  - intros [] st' s' [G1 G2]. split; [exact G1|]. intros j Hj. apply G2. rewrite seq_length. exact Hj.
Qed.
(** one restart cycle *)
Lemma gmres_step_bad c st s : gm_pl c = pl -> gm_restart c = m ->
  wp (gmres_step A lg red c) (fun c' st' s' => gm_pl c' = pl /\ gm_restart c' = m /\
    (forall u, In u U -> bad (entry pl s SOL u) -> bad (entry pl s' SOL u)) /\
    forall j, j + 1 < m -> (forall k, k <= j -> bad (val s' (gm_h c' k j)) -> badm s' SOL) /\ (zero_or_nan (val s' (gm_h c' (j + 1) j)) -> badm s' SOL)) st s.
Proof.
  intros Ec Er. unfold gmres_step, gmres_start, scalar_rsqrt. rewrite Ec, Er.
  apply wp_bind. apply wp_bind. apply (@wpb_matvec p e lg Hlg cs (m + 1) pl Hw); [rng|rng|rng|]. intros s1 K1.
  apply wp_bind. apply (@wpb_xpay p e lg Hlg cs (m + 1) pl Hw); [rng|rng|rng|rng|]. intros s2 _ K2.
  apply wp_bind. apply (@wpb_dot p e lg red cs (m + 1) pl Hw); [exact Hn|rng|rng|]. intros f st3 s3 L1 L2 _ K3.
  apply wp_bind. apply (@wpb_scalar pl). intros s4 _ K4.
  apply (@wpb_scal p e lg Hlg cs (m + 1) pl Hw); [rng|]. intros s5 _ K5.
  assert (G5 : keeps (fun vi => vi = SOL) st (next st3) s s5).
  { eapply keeps_trans; [apply (keeps_but _ st K1); intros C; exfalso; rng|]. eapply keeps_trans; [apply (keeps_but _ st K2); intros C; exfalso; rng|].
    eapply keeps_trans; [apply (keeps_old _ st3 K3); lia|]. eapply keeps_trans; [apply (keeps_old _ (next st3) K4); cbn [next next_fut]; lia|].
    apply (keeps_but _ (next st3) K5). intros C; exfalso; rng. }
  apply wp_bind. eapply wp_conseq; [apply (@wp_mfold _ nat _ _ (fun done h' st' s' => keeps (fun vi => vi = SOL) st st' s s' /\ forall j, j < length done -> column h' j st' s') (seq 0 m))|].
  - intros done k rest h' st' s' E [G1 G2]. apply seq_split in E. destruct E as [Ek L]. cbn [Nat.add] in Ek.
    eapply wp_conseq; [apply (@arnoldi_bad k st' s' h'); lia|]. intros h2 st9 s9 (B1 & B2 & B3). split.
    + eapply keeps_trans; [exact G1|]. apply (keeps_weak (P := fun vi => vi <> kb (k + 1))); [intros vi ->; rng|exact B1].
    + intros j Hj. rewrite app_length in Hj. cbn [length] in Hj. destruct (Nat.eq_dec j k) as [->|Ne]; [exact B3|].
      eapply column_keeps; [exact B1|cbv beta; rng|lia|intros i Hi; apply B2; exact Ne|apply G2; lia].
  - cbn [length]. split; [exact G5|lia].
  - intros h6 st6 s6 [G6 C6]. rewrite seq_length in C6.
    apply wp_bind. apply (@wpb_scalar pl). intros s7 _ K7. assert (G7 := keeps_old (fun _ => True) (next st6) K7 ltac:(cbn [next next_fut]; lia)).
    apply wp_bind. eapply wp_conseq; [apply update_bad|]. intros [] st8 s8 [G8 B8]. apply wp_ret. cbn [gm_pl gm_restart gm_h].
    split; [reflexivity|]. split; [reflexivity|]. split.
    + intros u Hu Hb. apply (proj2 (proj2 G8)); [rng|exact I|exact Hu|]. apply (proj2 (proj2 G7)); [rng|exact I|exact Hu|]. apply (proj2 (proj2 G6)); [rng|reflexivity|exact Hu|exact Hb].
    + intros j Hj. destruct (C6 j ltac:(lia)) as [D1 D2]. destruct (D2 Hj) as [D3 D4].
      assert (EV : forall k, k <= j + 1 -> val s8 (h6 k j) = val s6 (h6 k j)) by (intros k Hk; apply (proj1 (proj2 (keeps_trans G7 G8))); apply D1; exact Hk).
      assert (KK : badm s6 (kb (j + 1)) -> badm s8 SOL) by (intros Hb; apply (B8 (j + 1)); [exact Hj|]; apply (keeps_bad G7); [rng|exact I|exact Hb]).
      split; [intros k Hk Hb; rewrite EV in Hb by lia; apply KK; apply (D3 k Hk Hb)|intros Hb; rewrite EV in Hb by lia; apply KK; apply (D4 Hb)].
Qed.
End Gmres.
Definition gmb (m k : nat) (c : gmres spec_float) (st : ist) (s : store) : Prop :=
  working lg cs (m + 1) (gm_pl c) /\ pl_sol (gm_pl c) = sols_of cs /\ gm_restart c = m /\
  (0 < k -> forall j, j + 1 < m -> (forall i, i <= j -> bad (s (LFut (gm_h c i j))) -> lost (gm_pl c) s) /\ (zero_or_nan (s (LFut (gm_h c (j + 1) j))) -> lost (gm_pl c) s)).
Lemma gmb_step m k c st s : gmb m k c st s ->
  wp (gmres_step A lg red c) (fun c' st' s' => gmb m (S k) c' st' s' /\ gm_pl c' = gm_pl c /\ forall u, In u U -> bad (entry (gm_pl c) s SOL u) -> bad (entry (gm_pl c) s' SOL u)) st s.
Proof.
  intros (Hw & C3 & Er & _). eapply wp_conseq; [apply (@gmres_step_bad m (gm_pl c) Hw c st s eq_refl Er)|]. intros c' st' s' (E1 & E2 & H1 & H2).
  split; [|split; [exact E1|exact H1]]. unfold gmb. rewrite E1. auto.
Qed.
Lemma gmb_run m st pl0 s k : set_up lg cs st pl0 -> wp (gmres_run A lg red pl0 m k) (gmb m k) st s.
Proof.
  intros Hs. unfold gmres_run. apply wp_bind. eapply wp_conseq with (Q1 := gmb m 0).
  - unfold gmres_new, scalar_const. apply wp_bind. apply wp_scalar_task. intros s1 E1 F1.
    apply wp_bind. apply (@wp_allocate _ lg cs _ pl0 (m + 1) _ s1); [apply (@set_up_next _ lg cs st); [cbn; lia|exact Hs]|].
    intros pl st1 Hw C3 C4 N1. apply wp_bind. apply wp_scalar_task. intros s2 E2 F2. apply wp_ret. unfold gmb. cbn [gm_pl gm_restart]. split; [exact Hw|]. split; [exact C3|]. split; [reflexivity|]. intros C; lia.
  - intros c st' s' H. induction k as [|k IH]; cbn [gmres_steps]; [apply wp_ret; exact H|]. apply wp_bind. eapply wp_conseq; [exact IH|]. intros c' st1 s1 H'.
    eapply wp_conseq; [apply gmb_step; exact H'|]. intros c2 st2 s2 H2. apply H2.
Qed.
(** *** from one number of steps to a larger one *)
Lemma stay X (run : nat -> M spec_float X) (step : X -> M spec_float X) (plof : X -> planner spec_float) nw (Inv : nat -> X -> ist -> store -> Prop) st s :
  (forall k Q, wp (run k) (fun c st' s' => wp (step c) Q st' s') st s -> wp (run (S k)) Q st s) -> (forall k, wp (run k) (Inv k) st s) ->
  (forall k c st s, Inv k c st s -> working lg cs nw (plof c) /\ pl_sol (plof c) = sols_of cs) ->
  (forall k c st s, Inv k c st s -> wp (step c) (fun c' st' s' => Inv (S k) c' st' s' /\ plof c' = plof c /\ forall u, In u U -> bad (entry (plof c) s SOL u) -> bad (entry (plof c) s' SOL u)) st s) ->
  forall j k c1 st1 s1 c2 st2 s2, j <= k -> ends (run j) st s c1 st1 s1 -> ends (run k) st s c2 st2 s2 ->
  forall v q, In v (sols_of cs) -> In q (is_points lg (pv_space v)) -> bad (s1 (at_point v q)) -> bad (s2 (at_point v q)).
Proof.
  intros HS HR HI Hst j k c1 st1 s1 c2 st2 s2 Hjk E1 E2 v q Hv Hq Hb. replace k with (j + (k - j)) in E2 by lia. revert E2. generalize (k - j) as d. intros d E2.
  assert (W : wp (run (j + d)) (fun c st' s' => Inv (j + d) c st' s' /\ forall u, In u U -> bad (entry (plof c) s1 SOL u) -> bad (entry (plof c) s' SOL u)) st s).
  { clear E2. induction d as [|d IH].
    - replace (j + 0) with j by lia. eapply wp_conseq; [apply (wp_and_ends (HR j) E1)|]. cbv beta. intros c st' s' (H1 & -> & -> & H2). split; [exact H1|]. intros u Hu. unfold entry. rewrite H2. auto.
    - replace (j + S d) with (S (j + d)) by lia. apply HS. eapply wp_conseq; [exact IH|]. cbv beta. intros c st' s' [H1 H2]. eapply wp_conseq; [apply (Hst _ _ _ _ H1)|]. cbv beta.
      intros c' st3 s3 (H3 & H4 & H5). split; [exact H3|]. rewrite H4. auto. }
  destruct (wp_ends W E2) as [s3 [[H1 H2] E3]]. destruct (HI _ _ _ _ H1) as [Hw C3]. destruct (In_nth_error _ _ Hv) as [i Hi].
  destruct (sol_entry s1 i q Hw C3 Hi Hq) as [Hu F1]. destruct (sol_entry s3 i q Hw C3 Hi Hq) as [_ F3]. rewrite E3, <- F3. apply H2; [exact Hu|]. rewrite F1. exact Hb.
Qed.
Lemma steps_after X (mk : M spec_float X) (steps : X -> M spec_float X) (step : X -> M spec_float X) Q st s :
  wp (bind mk steps) (fun c st' s' => wp (step c) Q st' s') st s -> wp (bind mk (fun c => bind (steps c) step)) Q st s.
Proof. intros H. apply wp_bind_inverse in H. apply wp_bind. eapply wp_conseq; [exact H|]. intros c st' s' H'. apply wp_bind. exact H'. Qed.
Lemma wp_and X (mm : M spec_float X) Q1 Q2 st s : wp mm Q1 st s -> wp mm Q2 st s -> wp mm (fun c st' s' => Q1 c st' s' /\ Q2 c st' s') st s.
Proof.
  intros [x [l1 [st1 [H1 [H2 H3]]]]] [x' [l2 [st2 [G1 [G2 G3]]]]]. rewrite H1 in G1. injection G1 as <- <- <-. exists x, l1, st1. auto.
Qed.
End Run.

(** ** C100. *)
(** Conjugate gradients: [cg_norms] are the recorded squared residual norms, the [i]-th after [i] steps.  If one is an infinity or NaN, every later step leaves no
    finite entry in the solution; if one is zero, every step but the next does. *)
Theorem C100_cg_breakdown : forall (p e : Z) lg red (cs : list (setup_call spec_float)) st pl0 s k,
  legion_ok lg -> set_up lg cs st pl0 -> 0 < length (sols_of cs) ->
  accepted (cg_run (ieee p e) lg red pl0 k) st /\
  forall c st' s', ends (cg_run (ieee p e) lg red pl0 k) st s c st' s' -> length (cg_norms c) = S k /\
    forall i f, nth_error (cg_norms c) i = Some f ->
      (~ is_number (s' (LFut f)) -> i < k -> no_finite_entry lg s' (sols_of cs)) /\
      (is_zero (s' (LFut f)) -> i + 1 < k -> no_finite_entry lg s' (sols_of cs)).
Proof.
  intros p e lg red cs st pl0 s k Hlg Hs Hn. assert (W := @cgb_run p e lg Hlg red cs Hn st pl0 s k Hs). split; [eapply wp_accepted; exact W|].
  intros c st' s' He. destruct (wp_ends W He) as [s1 [[Hw C3 HL HN HB HZ] E]]. split; [exact HL|]. intros i f Hi. rewrite E. split; intros Hb Hk; apply (sol_entries Hn s' Hw C3 E).
  - apply (HB i f Hi Hk Hb).
  - apply (HZ i f Hi Hb). lia.
Qed.

(** BiCGStab: [bi_rho], [bi_alpha] and [bi_omega] are the recorded scalars, the [i]-th after [i] steps. *)
Theorem C100_bicgstab_breakdown : forall (p e : Z) lg red (cs : list (setup_call spec_float)) st pl0 s k,
  format p e -> legion_ok lg -> set_up lg cs st pl0 -> 0 < length (sols_of cs) ->
  accepted (bicg_run (ieee p e) lg red pl0 k) st /\
  forall c st' s', ends (bicg_run (ieee p e) lg red pl0 k) st s c st' s' ->
    length (bi_rho c) = S k /\ length (bi_alpha c) = S k /\ length (bi_omega c) = S k /\
    forall i f, 
      (nth_error (bi_rho c) i = Some f \/ nth_error (bi_alpha c) i = Some f \/ nth_error (bi_omega c) i = Some f -> ~ is_number (s' (LFut f)) -> no_finite_entry lg s' (sols_of cs)) /\
      (nth_error (bi_rho c) i = Some f \/ nth_error (bi_omega c) i = Some f -> is_zero (s' (LFut f)) -> i < k -> no_finite_entry lg s' (sols_of cs)).
Proof.
  intros p e lg red cs st pl0 s k [Hp He] Hlg Hs Hn.
  assert (W := @bib_run p e lg Hlg red cs Hn (proj1 (one_value Hp He)) False ltac:(tauto) st pl0 s k Hs ltac:(tauto)). split; [eapply wp_accepted; exact W|].
  intros c st' s' H. destruct (wp_ends W H) as [s1 [[Hw C3 Hr Ha Ho HB HZ _] E]]. split; [apply Hr|]. split; [apply Ha|]. split; [apply Ho|]. intros i f. rewrite E.
  split; intros Hi Hb; [|intros Hk]; apply (sol_entries Hn s' Hw C3 E); [apply (HB i f Hi Hb)|apply (HZ i f Hi Hb Hk)].
Qed.
(** a zero right-hand side (for conjugate gradients this is C39) *)
Theorem C100_bicgstab_zero_rhs : forall (p e : Z) lg red (cs : list (setup_call spec_float)) st pl0 s k,
  format p e -> legion_ok lg -> legal_reduction (ieee p e) red -> set_up lg cs st pl0 -> 0 < length (sols_of cs) -> 0 < k ->
  (forall v q, In v (rhss_of cs) -> In q (is_points lg (pv_space v)) -> is_zero (s (at_point v q))) ->
  accepted (bicg_run (ieee p e) lg red pl0 k) st /\
  forall c st' s', ends (bicg_run (ieee p e) lg red pl0 k) st s c st' s' -> no_finite_entry lg s' (sols_of cs).
Proof.
  intros p e lg red cs st pl0 s k [Hp He] Hlg Hred Hs Hn Hk Hz.
  assert (W := @bib_run p e lg Hlg red cs Hn (proj1 (one_value Hp He)) True (fun _ => Hred) st pl0 s k Hs (fun _ => Hz)). split; [eapply wp_accepted; exact W|].
  intros c st' s' H. destruct (wp_ends W H) as [s1 [[Hw C3 Hr Ha Ho HB HZ HT] E]]. apply (sol_entries Hn s' Hw C3 E). apply (HT I). exact Hk.
Qed.
(** GMRES: [gm_h] are the inner products of the last restart cycle, column by column. *)
Theorem C100_gmres_breakdown : forall (p e : Z) lg red (cs : list (setup_call spec_float)) st pl0 s restart k,
  legion_ok lg -> set_up lg cs st pl0 -> 0 < length (sols_of cs) ->
  accepted (gmres_run (ieee p e) lg red pl0 restart k) st /\
  forall c st' s', ends (gmres_run (ieee p e) lg red pl0 restart k) st s c st' s' -> 0 < k ->
    forall j, j + 1 < restart ->
      (forall i, i <= j -> ~ is_number (s' (LFut (gm_h c i j))) -> no_finite_entry lg s' (sols_of cs)) /\
      (zero_or_nan (s' (LFut (gm_h c (j + 1) j))) -> no_finite_entry lg s' (sols_of cs)).
Proof.
  intros p e lg red cs st pl0 s m k Hlg Hs Hn. assert (W := @gmb_run p e lg Hlg red cs Hn m st pl0 s k Hs). split; [eapply wp_accepted; exact W|].
  intros c st' s' H Hk j Hj. destruct (wp_ends W H) as [s1 [(Hw & C3 & _ & HB) E]]. destruct (HB Hk j Hj) as [H1 H2]. split; [intros i Hi|]; rewrite E; intros Hb; apply (sol_entries Hn s' Hw C3 E); auto.
  apply (H1 i Hi Hb).
Qed.
(** an entry of the solution that is an infinity or NaN after some number of steps is one after any larger number *)
Theorem C100_lost_entries_stay_lost : forall (p e : Z) lg red (cs : list (setup_call spec_float)) st pl0 s j k v q,
  format p e -> legion_ok lg -> set_up lg cs st pl0 -> 0 < length (sols_of cs) -> j <= k -> In v (sols_of cs) -> In q (is_points lg (pv_space v)) ->
  (forall c1 st1 s1 c2 st2 s2, ends (cg_run (ieee p e) lg red pl0 j) st s c1 st1 s1 -> ends (cg_run (ieee p e) lg red pl0 k) st s c2 st2 s2 ->
     ~ is_number (s1 (at_point v q)) -> ~ is_number (s2 (at_point v q))) /\
  (forall c1 st1 s1 c2 st2 s2, ends (bicg_run (ieee p e) lg red pl0 j) st s c1 st1 s1 -> ends (bicg_run (ieee p e) lg red pl0 k) st s c2 st2 s2 ->
     ~ is_number (s1 (at_point v q)) -> ~ is_number (s2 (at_point v q))) /\
  (forall restart c1 st1 s1 c2 st2 s2, ends (gmres_run (ieee p e) lg red pl0 restart j) st s c1 st1 s1 -> ends (gmres_run (ieee p e) lg red pl0 restart k) st s c2 st2 s2 ->
     ~ is_number (s1 (at_point v q)) -> ~ is_number (s2 (at_point v q))).
Proof.
  intros p e lg red cs st pl0 s j k v q [Hp He] Hlg Hs Hn Hjk Hv Hq. split; [|split].
  - intros c1 st1 s1 c2 st2 s2 E1 E2. refine (@stay lg cs Hn (cg spec_float) (cg_run (ieee p e) lg red pl0) (cg_step (ieee p e) lg red) (@cg_pl spec_float) 3 (cgb lg cs) st s _ _ _ _ j k c1 st1 s1 c2 st2 s2 Hjk E1 E2 v q Hv Hq).
    + intros k' Q H. apply steps_after. exact H.
    + intros k'. apply (@cgb_run p e lg Hlg red cs Hn st pl0 s k' Hs).
    + intros k' c st' s' [Hw C3 _ _ _ _]. auto.
    + intros k' c st' s' H. eapply wp_conseq; [apply wp_and; [apply (@cgb_step p e lg Hlg red cs Hn k' c st' s' H)|apply (@cg_step_keeps p e lg Hlg red cs Hn c st' s' (cb_working H)); intros C; assert (L := cb_len H); rewrite C in L; discriminate]|].
      cbv beta. intros c' st3 s3 (H1 & H2 & _ & H3). auto.
  - intros c1 st1 s1 c2 st2 s2 E1 E2. refine (@stay lg cs Hn (bicg spec_float) (bicg_run (ieee p e) lg red pl0) (bicg_step (ieee p e) lg red) (@bi_pl spec_float) 5 (fun k' => bib lg cs False k') st s _ _ _ _ j k c1 st1 s1 c2 st2 s2 Hjk E1 E2 v q Hv Hq).
    + intros k' Q H. apply steps_after. exact H.
    + intros k'. apply (@bib_run p e lg Hlg red cs Hn (proj1 (one_value Hp He)) False ltac:(tauto) st pl0 s k' Hs ltac:(tauto)).
    + intros k' c st' s' [Hw C3 _ _ _ _ _ _]. auto.
    + intros k' c st' s' H. apply bib_step; auto. tauto.
  - intros m c1 st1 s1 c2 st2 s2 E1 E2. refine (@stay lg cs Hn (gmres spec_float) (gmres_run (ieee p e) lg red pl0 m) (gmres_step (ieee p e) lg red) (@gm_pl spec_float) (m + 1) (gmb lg cs m) st s _ _ _ _ j k c1 st1 s1 c2 st2 s2 Hjk E1 E2 v q Hv Hq).
    + intros k' Q H. apply steps_after. exact H.
    + intros k'. apply (@gmb_run p e lg Hlg red cs Hn m st pl0 s k' Hs).
    + intros k' c st' s' (Hw & C3 & _). auto.
    + intros k' c st' s' H. apply gmb_step; auto.
Qed.

(** the matrix diag(1, 3), a zero initial guess and the right-hand side (1, 0), in double: all three solvers have the solution (1, 0) within reach and walk past it *)
Definition one_zero : store loc f64 := fun l => match l with LVec 20 _ [0%Z] => f64_of_Z 1 | _ => f64_zero end.
Lemma run_check X (m : M f64 X) (F : X -> list nat) v qs (P : list f64 -> list f64 -> Prop) st s :
  match m st with Ok (c, lns, _) => P (map (fun f => effect lns s (LFut f)) (F c)) (map (fun q => effect lns s (at_point v q)) qs) | _ => False end ->
  wp m (fun _ _ _ => True) st s -> forall c st' s', ends m st s c st' s' -> P (map (fun f => s' (LFut f)) (F c)) (map (fun q => s' (at_point v q)) qs).
Proof.
  intros H (c0 & lns0 & st0 & E1 & G & _) c st' s' [lns [E L]]. assert (E3 := eq_trans (eq_sym E1) E). injection E3 as -> -> ->.
  assert (D : forall l, s' l = effect lns s l) by (apply launches_end_effect; assumption). rewrite E in H.
  rewrite (map_ext (fun f => s' (LFut f)) (fun f => effect lns s (LFut f))) by (intros; apply D). rewrite (map_ext (fun q => s' (at_point v q)) (fun q => effect lns s (at_point v q))) by (intros; apply D). exact H.
Qed.
Example C100_example : let A := ieee 53 1024 in let red := left_sum A in let x := at_point (v2 3 10) in let nan2 s' := s' (x [0%Z]) = S754_nan /\ s' (x [1%Z]) = S754_nan in
  format 53 1024 /\ legion_ok lg2 /\ legal_reduction A red /\ set_up lg2 diag64_calls ex_st diag64_planner /\ 0 < length (sols_of diag64_calls) /\
  (* conjugate gradients: solved exactly after one step, the zero residual norm is recorded; lost from then on *)
  (forall c st' s', ends (cg_run A lg2 red diag64_planner 1) ex_st one_zero c st' s' -> is_zero (s' (LFut (nth 1 (cg_norms c) 0))) /\ s' (x [0%Z]) = f64_of_Z 1 /\ s' (x [1%Z]) = f64_zero) /\
  (forall c st' s', ends (cg_run A lg2 red diag64_planner 3) ex_st one_zero c st' s' -> is_zero (s' (LFut (nth 1 (cg_norms c) 0))) /\ nan2 s') /\
  (* BiCGStab: 0 / 0 in the first step *)
  (forall c st' s', ends (bicg_run A lg2 red diag64_planner 1) ex_st one_zero c st' s' -> s' (LFut (nth 1 (bi_omega c) 0)) = S754_nan /\ nan2 s') /\
  (* GMRES with restart 2: the second basis vector has norm zero *)
  (forall c st' s', ends (gmres_run A lg2 red diag64_planner 2 1) ex_st one_zero c st' s' -> is_zero (s' (LFut (gm_h c 1 0))) /\ nan2 s').
Proof.
  intros A red x nan2. assert (Hs : set_up lg2 diag64_calls ex_st diag64_planner) by (split; [exact diag64_well_formed|reflexivity]).
  assert (Hn : 0 < length (sols_of diag64_calls)) by (cbn; lia).
  assert (WC : forall k, wp (cg_run A lg2 red diag64_planner k) (fun _ _ _ => True) ex_st one_zero) by (intros k; eapply wp_conseq; [apply (@cgb_run 53 1024 lg2 lg2_ok red diag64_calls Hn _ _ one_zero k Hs)|auto]).
  assert (WB : wp (bicg_run A lg2 red diag64_planner 1) (fun _ _ _ => True) ex_st one_zero).
  { eapply wp_conseq; [apply (@bib_run 53 1024 lg2 lg2_ok red diag64_calls Hn I False ltac:(tauto) _ _ one_zero 1 Hs ltac:(tauto))|auto]. }
  assert (WG : wp (gmres_run A lg2 red diag64_planner 2 1) (fun _ _ _ => True) ex_st one_zero) by (eapply wp_conseq; [apply (@gmb_run 53 1024 lg2 lg2_ok red diag64_calls Hn 2 _ _ one_zero 1 Hs)|auto]).
  split; [exact double_format_ok|]. split; [exact lg2_ok|]. split; [apply fold_left_legal|]. split; [exact Hs|]. split; [exact Hn|].
  split; [|split; [|split]]; intros c st' s' He.
  - assert (H := @run_check _ (cg_run A lg2 red diag64_planner 1) (fun c => [nth 1 (cg_norms c) 0]) (v2 3 10) [[0%Z];[1%Z]] (fun l l2 => l = [f64_zero] /\ l2 = [f64_of_Z 1; f64_zero]) ex_st one_zero ltac:(vm_compute; split; reflexivity) (WC 1) c st' s' He).
    cbn [map] in H. destruct H as [H1 H2]. injection H1 as ->. injection H2 as H2 H3. split; [exact I|]. split; assumption.
  - assert (H := @run_check _ (cg_run A lg2 red diag64_planner 3) (fun c => [nth 1 (cg_norms c) 0]) (v2 3 10) [[0%Z];[1%Z]] (fun l l2 => l = [f64_zero] /\ l2 = [S754_nan; S754_nan]) ex_st one_zero ltac:(vm_compute; split; reflexivity) (WC 3) c st' s' He).
    cbn [map] in H. destruct H as [H1 H2]. injection H1 as ->. injection H2 as H2 H3. split; [exact I|]. split; assumption.
  - assert (H := @run_check _ (bicg_run A lg2 red diag64_planner 1) (fun c => [nth 1 (bi_omega c) 0]) (v2 3 10) [[0%Z];[1%Z]] (fun l l2 => l = [S754_nan] /\ l2 = [S754_nan; S754_nan]) ex_st one_zero ltac:(vm_compute; split; reflexivity) WB c st' s' He).
    cbn [map] in H. destruct H as [H1 H2]. injection H1 as ->. injection H2 as H2 H3. split; [reflexivity|]. split; assumption.
  - assert (H := @run_check _ (gmres_run A lg2 red diag64_planner 2 1) (fun c => [gm_h c 1 0]) (v2 3 10) [[0%Z];[1%Z]] (fun l l2 => l = [f64_zero] /\ l2 = [S754_nan; S754_nan]) ex_st one_zero ltac:(vm_compute; split; reflexivity) WG c st' s' He).
    cbn [map] in H. destruct H as [H1 H2]. injection H1 as ->. injection H2 as H2 H3. split; [exact I|]. split; assumption.
Qed.
