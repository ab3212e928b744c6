(** PropsBiCG: property C40 (BiCGStab). *)
From Coq Require Import Reals Lra.
From Verif Require Import Base Index Outcome Sched Async Arith Launch Vector PartitionSpec VectorFacts LaunchFacts Matrix MatrixSpec MatrixFacts
  MatvecFacts Builder BuilderFacts Exec ExactSum LinAlg CGSpec BiCGSpec Planner PlannerFacts PlannerSetup Solvers PropsVector PropsMatrix PropsPlanner
  PropsSolver SolverFacts BiCGMath UndefFacts PropsCG.
Set Implicit Arguments.

Ltac rng := unfold SOL, RHS, BI_P, BI_R, BI_RT, BI_U, BI_V, krylov_basis in *; cbn [length] in *; lia.
(** carry a vector or an old future through the operations executed since it was computed *)
Ltac kv :=
  first
  [ eassumption
  | match goal with
    | K : keeps _ _ _ _ ?s1 ?s2 |- vector_is _ _ ?s2 _ _ => apply (proj1 K); [rng|rng|kv]
    | K : keeps_all _ _ _ ?s1 ?s2 |- vector_is _ _ ?s2 _ _ => apply (proj1 K); kv
    end ].
Ltac kf :=
  first
  [ eassumption
  | match goal with
    | K : keeps _ _ _ _ ?s1 ?s2 |- ?s2 (LFut _) = _ => rewrite (proj2 K); kf
    | K : keeps_all _ _ _ ?s1 ?s2 |- ?s2 (LFut _) = _ => rewrite (proj2 K) by (cbn [next next_fut] in *; lia); kf
    end ].

Lemma wp_back_snoc T X (l : list X) x (Q : X -> ist -> Sched.store loc T -> Prop) st s : Q x st s -> wp (back T (l ++ [x])) Q st s.
Proof. intros H. unfold back. eapply wp_lift; [rewrite rev_app_distr; reflexivity|exact H]. Qed.
Section BiCG.
Variable lg : legion.
Hypothesis Hlg : legion_ok lg.
Variable red : nat -> list (option R) -> option R.
Hypothesis Hred : legal_reduction exact red.
Variable cs : list (setup_call (option R)).
Hypothesis Hre : real_entries cs.
Hypothesis Hn : 0 < length (sols_of cs).
Variables x0 b : unknown -> R.
Notation U := (unknowns lg cs).
Notation a := (operator cs).
Notation t k := (bicg_iter U a x0 b k).
Notation store := (store loc (option R)).

(** entry [j] of the list of scalars holds [f j], for j = 0 .. k *)
Definition history (st : ist) (s : store) (l : list scalar) (k : nat) (f : nat -> R) : Prop :=
  length l = S k /\ forall j c, nth_error l j = Some c -> c < next_fut st /\ s (LFut c) = Some (f j).
Record bi_inv (k : nat) (c : bicg (option R)) (st : ist) (s : store) : Prop := mk_bi_inv {
  bi_working : working lg cs 5 (bi_pl c);
  bi_sol : pl_sol (bi_pl c) = sols_of cs;
  bi_rhs : pl_rhs (bi_pl c) = rhss_of cs;
  bi_x : vector_is lg (bi_pl c) s SOL (b_x (t k));
  bi_b : vector_is lg (bi_pl c) s RHS b;
  bi_rt : vector_is lg (bi_pl c) s BI_RT b;
  bi_r : vector_is lg (bi_pl c) s BI_R (b_r (t k));
  bi_p : vector_is lg (bi_pl c) s BI_P (b_p (t k));
  bi_v : vector_is lg (bi_pl c) s BI_V (b_v (t k));
  bi_m1 : s (LFut (bi_neg1 c)) = Some (-1)%R /\ bi_neg1 c < next_fut st;
  bi_hr : history st s (bi_rho c) k (fun j => b_rho (t j));
  bi_ha : history st s (bi_alpha c) k (fun j => b_alpha (t j));
  bi_ho : history st s (bi_omega c) k (fun j => b_omega (t j)) }.

Lemma history_one st s c f : c < next_fut st -> s (LFut c) = Some (f 0) -> history st s [c] 0 f.
Proof. intros L E. split; [reflexivity|]. intros [|[|j]] d Hd; cbn in Hd; try discriminate. injection Hd as <-. auto. Qed.
Lemma history_push st st' (s s' : store) l k f c : history st s l k f -> next_fut st <= next_fut st' -> (forall d, d < next_fut st -> s' (LFut d) = s (LFut d)) ->
  c < next_fut st' -> s' (LFut c) = Some (f (S k)) -> history st' s' (l ++ [c]) (S k) f.
Proof.
  intros [HL HN] Hst Hk L E. split; [rewrite app_length, HL; cbn; lia|]. intros j d Hd. destruct (Nat.lt_ge_cases j (S k)) as [Hj|Hj].
  - rewrite nth_error_app1 in Hd by lia. destruct (HN j d Hd) as [N V]. split; [lia|]. rewrite Hk by exact N. exact V.
  - rewrite nth_error_app2 in Hd by lia. rewrite HL in Hd. destruct (j - S k) as [|i] eqn:Ej; [|destruct i; discriminate]. injection Hd as <-.
    assert (j = S k) by lia. subst j. split; [exact L|exact E].
Qed.
Lemma history_last st s l k f : history st s l k f -> exists c, nth_error l k = Some c /\ c < next_fut st /\ s (LFut c) = Some (f k).
Proof.
  intros [HL HN]. destruct (nth_error l k) as [c|] eqn:E; [|apply nth_error_None in E; lia]. exists c. split; [reflexivity|]. apply (HN k c E).
Qed.

Lemma bicg_new_inv st pl0 s : set_up lg cs st pl0 -> vectors_hold lg s (sols_of cs) x0 -> vectors_hold lg s (rhss_of cs) b ->
  wp (bicg_new exact lg pl0) (bi_inv 0) st s.
Proof.
  intros Hs Hx Hb. unfold bicg_new, scalar_const.
  apply wp_bind. apply wp_scalar_task. intros s1 E1 F1. cbn [exact aneg a1 lift1] in E1.
  apply wp_bind. apply wp_scalar_task. intros s2 E2 F2. cbn [exact a0] in E2.
  apply wp_bind. apply wp_scalar_task. intros s3 E3 F3. cbn [exact a1] in E3.
  cbn [next next_fut] in *.
  assert (E1' : s3 (LFut (next_fut st)) = Some (-1)%R) by (rewrite F3, F2 by (intros C; injection C; lia); exact E1).
  assert (E2' : s3 (LFut (S (next_fut st))) = Some 0%R) by (rewrite F3 by (intros C; injection C; lia); exact E2).
  apply wp_bind. apply (@wp_allocate _ lg cs _ pl0 5 _ s3); [apply (@set_up_next _ lg cs st); [cbn; lia|exact Hs]|].
  intros pl st1 Hw C3 C4 N1. cbn [next next_fut] in N1.
  assert (K : forall vs f, vectors_hold lg s vs f -> vectors_hold lg s3 vs f).
  { intros vs f H i v p Hv Hp. rewrite F3, F2, F1 by discriminate. apply (H i v p Hv Hp). }
  assert (X1 : vector_is lg pl s3 SOL x0) by (apply sol_vector_is; rewrite C3; apply K; exact Hx).
  assert (B1 : vector_is lg pl s3 RHS b) by (apply rhs_vector_is; rewrite C4; apply K; exact Hb).
  apply wp_bind. apply (@wpx_copy lg Hlg cs 5 pl Hw BI_R RHS b); [rng|rng|rng|exact B1|]. intros s4 V4 K4.
  apply wp_bind. apply (@wpx_copy lg Hlg cs 5 pl Hw BI_RT RHS b); [rng|rng|rng|kv|]. intros s5 V5 K5.
  apply wp_bind. apply (@wpx_zero lg Hlg cs 5 pl Hw BI_P); [rng|]. intros s6 V6 K6.
  apply wp_bind. apply (@wpx_zero lg Hlg cs 5 pl Hw BI_V); [rng|]. intros s7 V7 K7.
  apply wp_ret. constructor; cbn [bi_pl bi_rho bi_alpha bi_omega bi_neg1 bicg_iter b_x b_r b_p b_v]; auto; try kv.
  - split; [kf|lia].
  - apply history_one; [lia|]. cbn [bicg_iter b_rho]. kf.
  - apply history_one; [lia|]. cbn [bicg_iter b_alpha]. kf.
  - apply history_one; [lia|]. cbn [bicg_iter b_omega]. kf.
Qed.

Lemma bicg_step_inv k c st s : bi_inv k c st s -> bicg_defined U a x0 b k -> wp (bicg_step exact lg red c) (bi_inv (S k)) st s.
Proof.
  intros [Hw C3 C4 HX HB HRT HR HP HV [E1 L1] Hr Ha Ho] [[D1 [D2 D3]] D4]. unfold bicg_step. set (pl := bi_pl c) in *. set (T := t k) in *.
  destruct (history_last Hr) as (fr & Nr & Lr & Vr). destruct (history_last Ha) as (fa & Na & La & Va). destruct (history_last Ho) as (fo & No & Lo & Vo).
  cbv beta in Vr, Va, Vo. fold T in Vr, Va, Vo.
  apply wp_bind. apply (@wpx_dot lg Hlg red Hred cs 5 pl Hw BI_R BI_RT (b_r T) b); [exact Hn|rng|rng|exact HR|exact HRT|].
  intros frho st1 s1 A1 A2 _ V1 K1. rewrite ip_sym in V1. fold (b_rho' U b T) in V1.
  apply wp_bind. apply (@wp_back _ (bi_rho c) k fr); [apply Hr|exact Nr|].
  apply wp_bind. unfold scalar_div, scalar_mul, scalar_neg.
  apply (@wpx_scalar lg pl). intros s2 V2 K2. cbn [map on2] in V2.
  replace (s1 (LFut frho)) with (Some (b_rho' U b T)) in V2 by (symmetry; exact V1).
  replace (s1 (LFut fr)) with (Some (b_rho T)) in V2 by (symmetry; kf).
  cbn [exact adiv Rdiv_opt] in V2. destruct (Req_EM_T (b_rho T) 0) as [C|_]; [contradiction|].
  apply wp_bind. apply (@wp_back _ (bi_alpha c) k fa); [apply Ha|exact Na|].
  apply wp_bind. apply (@wp_back _ (bi_omega c) k fo); [apply Ho|exact No|].
  apply wp_bind. apply (@wpx_scalar lg pl). intros s3 V3 K3. cbn [map on2] in V3.
  replace (s2 (LFut fa)) with (Some (b_alpha T)) in V3 by (symmetry; kf).
  replace (s2 (LFut fo)) with (Some (b_omega T)) in V3 by (symmetry; kf).
  cbn [exact adiv Rdiv_opt] in V3. destruct (Req_EM_T (b_omega T) 0) as [C|_]; [contradiction|].
  apply wp_bind. apply (@wpx_scalar lg pl). intros s4 V4 K4. cbn [map on2] in V4.
  replace (s3 (LFut (next_fut st1))) with (Some (b_rho' U b T / b_rho T)%R) in V4 by (symmetry; kf).
  rewrite V3 in V4. cbn [exact amul lift2] in V4. change (Some (b_rho' U b T / b_rho T * (b_alpha T / b_omega T))%R) with (Some (b_beta U b T)) in V4.
  apply wp_bind. apply (@wpx_scalar lg pl). intros s5 V5 K5. cbn [map on1] in V5.
  replace (s4 (LFut fo)) with (Some (b_omega T)) in V5 by (symmetry; kf). cbn [exact aneg lift1] in V5.
  apply wp_bind. apply (@wpx_axpy lg Hlg cs 5 pl Hw BI_P [next_fut (next (next (next st1)))] BI_V (- b_omega T) (b_v T) (b_p T));
    [rng|rng|rng|rng|kv|kv|apply alpha_one; exact V5|]. intros s6 V6 K6.
  apply wp_bind. apply (@wpx_xpay lg Hlg cs 5 pl Hw BI_P [next_fut (next (next st1))] BI_R (b_beta U b T) (b_r T) (fun u => b_p T u + - b_omega T * b_v T u)%R);
    [rng|rng|rng|rng|kv|kv|apply alpha_one; kf|]. intros s7 V7 K7.
  assert (V7' : vector_is lg pl s7 BI_P (b_p' U b T)).
  { revert V7. apply (@vector_is_ext lg cs 5 pl Hw); [rng|]. intros u _. unfold b_p'. ring. }
  clear V7. rename V7' into V7.
  apply wp_bind. apply (@wpx_matvec lg Hlg cs Hre 5 pl Hw BI_V BI_P (b_p' U b T)); [rng|rng|rng|exact V7|]. intros s8 V8 K8. fold (b_v' U a b T) in V8.
  apply wp_bind. apply (@wpx_dot lg Hlg red Hred cs 5 pl Hw BI_RT BI_V b (b_v' U a b T)); [exact Hn|rng|rng|kv|exact V8|].
  intros ft st9 s9 A3 A4 _ V9 K9. cbn [next next_fut] in A3.
  apply wp_bind. apply (@wp_back _ (bi_rho c ++ [frho]) (S k) frho);
    [rewrite app_length, (proj1 Hr); cbn; lia|rewrite nth_error_app2 by (rewrite (proj1 Hr); lia); rewrite (proj1 Hr), Nat.sub_diag; reflexivity|].
  assert (Vrho9 : s9 (LFut frho) = Some (b_rho' U b T)) by kf.
  assert (Vneg9 : s9 (LFut (bi_neg1 c)) = Some (-1)%R) by kf.
  apply wp_bind. apply (@wpx_axpy lg Hlg cs 5 pl Hw BI_R [bi_neg1 c; frho; ft] BI_V (-1 * b_rho' U b T / ip U b (b_v' U a b T)) (b_v' U a b T) (b_r T));
    [rng|rng|rng|rng|kv|kv|apply alpha_three; assumption|]. intros s10 V10 K10.
  assert (V10' : vector_is lg pl s10 BI_R (b_s U a b T)).
  { revert V10. apply (@vector_is_ext lg cs 5 pl Hw); [rng|]. intros u _. unfold b_s, b_alpha'. unfold Rdiv. ring. }
  clear V10. rename V10' into V10.
  apply wp_bind. apply (@wpx_scalar lg pl). intros s11 V11 K11. cbn [map on2] in V11.
  replace (s10 (LFut frho)) with (Some (b_rho' U b T)) in V11 by (symmetry; kf).
  replace (s10 (LFut ft)) with (Some (ip U b (b_v' U a b T))) in V11 by (symmetry; kf).
  cbn [exact adiv Rdiv_opt] in V11. destruct (Req_EM_T (ip U b (b_v' U a b T)) 0) as [C|_]; [contradiction|]. fold (b_alpha' U a b T) in V11.
  apply wp_bind. apply (@wpx_matvec lg Hlg cs Hre 5 pl Hw BI_U BI_R (b_s U a b T)); [rng|rng|rng|kv|]. intros s12 V12 K12. fold (b_t U a b T) in V12.
  apply wp_bind. apply (@wpx_dot lg Hlg red Hred cs 5 pl Hw BI_R BI_U (b_s U a b T) (b_t U a b T)); [exact Hn|rng|rng|kv|exact V12|].
  intros fn st13 s13 A5 A6 _ V13 K13. rewrite ip_sym in V13. cbn [next next_fut] in A5.
  apply wp_bind. apply (@wpx_dot lg Hlg red Hred cs 5 pl Hw BI_U BI_U (b_t U a b T) (b_t U a b T)); [exact Hn|rng|rng|kv|kv|].
  intros fd st14 s14 A7 A8 _ V14 K14.
  apply wp_bind. apply (@wpx_scalar lg pl). intros s15 V15 K15. cbn [map on2] in V15.
  replace (s14 (LFut fn)) with (Some (ip U (b_t U a b T) (b_s U a b T))) in V15 by (symmetry; kf).
  rewrite V14 in V15. cbn [exact adiv Rdiv_opt] in V15. destruct (Req_EM_T (ip U (b_t U a b T) (b_t U a b T)) 0) as [C|_]; [contradiction|]. fold (b_omega' U a b T) in V15.
  apply wp_bind. apply (@wp_back _ (bi_alpha c ++ [next_fut st9]) (S k) (next_fut st9));
    [rewrite app_length, (proj1 Ha); cbn; lia|rewrite nth_error_app2 by (rewrite (proj1 Ha); lia); rewrite (proj1 Ha), Nat.sub_diag; reflexivity|].
  apply wp_bind. apply (@wpx_axpy lg Hlg cs 5 pl Hw SOL [next_fut st9] BI_P (b_alpha' U a b T) (b_p' U b T) (b_x T));
    [rng|rng|rng|rng|kv|kv|apply alpha_one; kf|]. intros s16 V16 K16.
  apply wp_bind. apply (@wp_back _ (bi_omega c ++ [next_fut st14]) (S k) (next_fut st14));
    [rewrite app_length, (proj1 Ho); cbn; lia|rewrite nth_error_app2 by (rewrite (proj1 Ho); lia); rewrite (proj1 Ho), Nat.sub_diag; reflexivity|].
  apply wp_bind. apply (@wpx_axpy lg Hlg cs 5 pl Hw SOL [next_fut st14] BI_R (b_omega' U a b T) (b_s U a b T) (fun u => b_x T u + b_alpha' U a b T * b_p' U b T u)%R);
    [rng|rng|rng|rng|kv|kv|apply alpha_one; kf|]. intros s17 V17 K17.
  apply wp_bind. apply (@wpx_scalar lg pl). intros s18 V18 K18. cbn [map on1] in V18.
  replace (s17 (LFut (next_fut st14))) with (Some (b_omega' U a b T)) in V18 by (symmetry; kf). cbn [exact aneg lift1] in V18.
  apply wp_bind. apply (@wpx_axpy lg Hlg cs 5 pl Hw BI_R [next_fut (next st14)] BI_U (- b_omega' U a b T) (b_t U a b T) (b_s U a b T));
    [rng|rng|rng|rng|kv|kv|apply alpha_one; exact V18|]. intros s19 V19 K19.
  cbn [next next_fut] in *.
  assert (KF : forall d, d < next_fut st -> s19 (LFut d) = s (LFut d)).
  { intros d Hd. assert (Q0 : s (LFut d) = s (LFut d)) by reflexivity. kf. }
  apply wp_ret. constructor; cbn [bi_pl bi_rho bi_alpha bi_omega bi_neg1]; auto; try kv.
  - revert V19. apply (@vector_is_ext lg cs 5 pl Hw); [rng|]. intros u _. cbn [bicg_iter bicg_next b_r]. fold T. ring.
  - split; [kf|cbn [next next_fut] in *; lia].
  - eapply history_push; [exact Hr|cbn [next next_fut] in *; lia|exact KF|cbn [next next_fut] in *; lia|]. cbn [bicg_iter bicg_next b_rho]. fold T. kf.
  - eapply history_push; [exact Ha|cbn [next next_fut] in *; lia|exact KF|cbn [next next_fut] in *; lia|]. cbn [bicg_iter bicg_next b_alpha]. fold T. kf.
  - eapply history_push; [exact Ho|cbn [next next_fut] in *; lia|exact KF|cbn [next next_fut] in *; lia|]. cbn [bicg_iter bicg_next b_omega]. fold T. kf.
Qed.
(** once the solution is undefined it stays so *)
Definition bi_lost (c : bicg (option R)) (s : store) : Prop :=
  working lg cs 5 (bi_pl c) /\ pl_sol (bi_pl c) = sols_of cs /\ bi_rho c <> [] /\ bi_alpha c <> [] /\ bi_omega c <> [] /\ vector_undefined lg (bi_pl c) s SOL.
Ltac usc w v k := apply wp_bind; match goal with Hw : working _ _ 5 ?pl |- _ => apply (@wpu_scalar lg pl) end; intros w v k; cbn [map on2 on1] in v.
Ltac udot f st w k := apply wp_bind; match goal with Hw : working _ _ 5 ?pl |- _ => apply (@wpu_dot lg red cs 5 pl Hw) end; [exact Hn|rng|rng|intros f st w ? ? k].
Ltac umv w k := apply wp_bind; match goal with Hw : working _ _ 5 ?pl |- _ => apply (@wpu_matvec lg Hlg cs 5 pl Hw) end; [rng|rng|rng|intros w k].
Ltac uax w v k := apply wp_bind; match goal with Hw : working _ _ 5 ?pl |- _ => apply (@wpu_axpy lg Hlg cs 5 pl Hw) end; [rng|rng|rng|rng|intros w v k].
Ltac uxp w v k := apply wp_bind; match goal with Hw : working _ _ 5 ?pl |- _ => apply (@wpu_xpay lg Hlg cs 5 pl Hw) end; [rng|rng|rng|rng|intros w v k].
Ltac ubk := apply wp_bind; first [apply wp_back_snoc | apply wp_back_any; [intros Enil; apply (f_equal (@length _)) in Enil; cbn in Enil; match goal with H : history _ _ _ _ _ |- _ => destruct H as [H _]; rewrite Enil in H; discriminate H end|intros ?]].
Ltac uk := unfold SOL, RHS, BI_P, BI_R, BI_RT, BI_U, BI_V in *; ku.
Ltac kx :=
  first
  [ eassumption
  | match goal with
    | K : ukeeps _ _ _ _ ?s1 ?s2 |- ?s2 (LFut _) = _ => rewrite (proj2 K); kx
    | K : ukeeps_all _ _ _ ?s1 ?s2 |- ?s2 (LFut _) = _ => rewrite (proj2 K) by (cbn [next next_fut] in *; lia); kx
    | K : keeps _ _ _ _ ?s1 ?s2 |- ?s2 (LFut _) = _ => rewrite (proj2 K); kx
    | K : keeps_all _ _ _ ?s1 ?s2 |- ?s2 (LFut _) = _ => rewrite (proj2 K) by (cbn [next next_fut] in *; lia); kx
    end ].
Ltac fin_lost := unfold bi_lost; cbn [bi_pl bi_rho bi_alpha bi_omega]; split; [assumption|]; split; [assumption|]; split; [intros C0; apply app_eq_nil in C0; destruct C0; discriminate|]; split; [intros C0; apply app_eq_nil in C0; destruct C0; discriminate|]; split; [intros C0; apply app_eq_nil in C0; destruct C0; discriminate|]; uk.
Lemma bicg_step_break k c st s : bi_inv k c st s -> ~ bicg_defined U a x0 b k ->
  wp (bicg_step exact lg red c) (fun c' _ s' => bi_lost c' s') st s.
Proof.
  intros [Hw C3 C4 HX HB HRT HR HP HV [E1 L1] Hr Ha Ho] D. unfold bicg_step. set (pl := bi_pl c) in *. set (T := t k) in *.
  destruct (history_last Hr) as (fr & Nr & Lr & Vr). destruct (history_last Ha) as (fa & Na & La & Va). destruct (history_last Ho) as (fo & No & Lo & Vo).
  cbv beta in Vr, Va, Vo. fold T in Vr, Va, Vo.
  apply wp_bind. apply (@wpx_dot lg Hlg red Hred cs 5 pl Hw BI_R BI_RT (b_r T) b); [exact Hn|rng|rng|exact HR|exact HRT|].
  intros frho st1 s1 A1 A2 _ V1 K1. rewrite ip_sym in V1. fold (b_rho' U b T) in V1.
  apply wp_bind. apply (@wp_back _ (bi_rho c) k fr); [apply Hr|exact Nr|].
  apply wp_bind. unfold scalar_div, scalar_mul, scalar_neg.
  apply (@wpx_scalar lg pl). intros s2 V2 K2. cbn [map on2] in V2.
  replace (s1 (LFut frho)) with (Some (b_rho' U b T)) in V2 by (symmetry; exact V1).
  replace (s1 (LFut fr)) with (Some (b_rho T)) in V2 by (symmetry; kf).
  cbn [exact adiv Rdiv_opt] in V2. destruct (Req_EM_T (b_rho T) 0) as [C|D1].
  { ubk. ubk. usc en1 ey1 ez1. usc en2 ey2 ez2. replace (en1 (LFut (next_fut st1))) with (@None R) in ey2 by (symmetry; kx). cbn [exact amul lift2] in ey2.
    usc eu1 ew1 ek1. uax eu2 ew2 ek2. uxp eu3 ew3 ek3.
    assert (HPu : vector_undefined lg pl eu3 BI_P) by (apply ew3; left; apply alpha_one_none; kx).
    umv eu4 ek4. udot eg5 eq5 eu5 ek5. ubk. uax eu6 ew6 ek6. usc eu7 ew7 ek7. umv eu8 ek8. udot eg9 eq9 eu9 ek9. udot eg10 eq10 eu10 ek10. usc eu11 ew11 ek11. ubk.
    uax eu12 ew12 ek12.
    assert (HS : vector_undefined lg pl eu12 SOL) by (apply ew12; right; right; uk).
    ubk. uax eu13 ew13 ek13.
    assert (HS2 : vector_undefined lg pl eu13 SOL) by (apply ew13; right; left; uk).
    usc eu14 ew14 ek14. uax eu15 ew15 ek15. apply wp_ret. fin_lost. }
  apply wp_bind. apply (@wp_back _ (bi_alpha c) k fa); [apply Ha|exact Na|].
  apply wp_bind. apply (@wp_back _ (bi_omega c) k fo); [apply Ho|exact No|].
  apply wp_bind. apply (@wpx_scalar lg pl). intros s3 V3 K3. cbn [map on2] in V3.
  replace (s2 (LFut fa)) with (Some (b_alpha T)) in V3 by (symmetry; kf).
  replace (s2 (LFut fo)) with (Some (b_omega T)) in V3 by (symmetry; kf).
  cbn [exact adiv Rdiv_opt] in V3. destruct (Req_EM_T (b_omega T) 0) as [C|D2].
  { usc en2 ey2 ez2. rewrite V3 in ey2.
    assert (ey3 : en2 (LFut (next_fut (next (next st1)))) = None) by (rewrite ey2; destruct (s3 (LFut (next_fut st1))); reflexivity).
    usc eu1 ew1 ek1. uax eu2 ew2 ek2. uxp eu3 ew3 ek3.
    assert (HPu : vector_undefined lg pl eu3 BI_P) by (apply ew3; left; apply alpha_one_none; kx).
    umv eu4 ek4. udot eg5 eq5 eu5 ek5. ubk. uax eu6 ew6 ek6. usc eu7 ew7 ek7. umv eu8 ek8. udot eg9 eq9 eu9 ek9. udot eg10 eq10 eu10 ek10. usc eu11 ew11 ek11. ubk.
    uax eu12 ew12 ek12.
    assert (HS : vector_undefined lg pl eu12 SOL) by (apply ew12; right; right; uk).
    ubk. uax eu13 ew13 ek13.
    assert (HS2 : vector_undefined lg pl eu13 SOL) by (apply ew13; right; left; uk).
    usc eu14 ew14 ek14. uax eu15 ew15 ek15. apply wp_ret. fin_lost. }
  apply wp_bind. apply (@wpx_scalar lg pl). intros s4 V4 K4. cbn [map on2] in V4.
  replace (s3 (LFut (next_fut st1))) with (Some (b_rho' U b T / b_rho T)%R) in V4 by (symmetry; kf).
  rewrite V3 in V4. cbn [exact amul lift2] in V4. change (Some (b_rho' U b T / b_rho T * (b_alpha T / b_omega T))%R) with (Some (b_beta U b T)) in V4.
  apply wp_bind. apply (@wpx_scalar lg pl). intros s5 V5 K5. cbn [map on1] in V5.
  replace (s4 (LFut fo)) with (Some (b_omega T)) in V5 by (symmetry; kf). cbn [exact aneg lift1] in V5.
  apply wp_bind. apply (@wpx_axpy lg Hlg cs 5 pl Hw BI_P [next_fut (next (next (next st1)))] BI_V (- b_omega T) (b_v T) (b_p T));
    [rng|rng|rng|rng|kv|kv|apply alpha_one; exact V5|]. intros s6 V6 K6.
  apply wp_bind. apply (@wpx_xpay lg Hlg cs 5 pl Hw BI_P [next_fut (next (next st1))] BI_R (b_beta U b T) (b_r T) (fun u => b_p T u + - b_omega T * b_v T u)%R);
    [rng|rng|rng|rng|kv|kv|apply alpha_one; kf|]. intros s7 V7 K7.
  assert (V7' : vector_is lg pl s7 BI_P (b_p' U b T)).
  { revert V7. apply (@vector_is_ext lg cs 5 pl Hw); [rng|]. intros u _. unfold b_p'. ring. }
  clear V7. rename V7' into V7.
  apply wp_bind. apply (@wpx_matvec lg Hlg cs Hre 5 pl Hw BI_V BI_P (b_p' U b T)); [rng|rng|rng|exact V7|]. intros s8 V8 K8. fold (b_v' U a b T) in V8.
  apply wp_bind. apply (@wpx_dot lg Hlg red Hred cs 5 pl Hw BI_RT BI_V b (b_v' U a b T)); [exact Hn|rng|rng|kv|exact V8|].
  intros ft st9 s9 A3 A4 _ V9 K9. cbn [next next_fut] in A3.
  apply wp_bind. apply (@wp_back _ (bi_rho c ++ [frho]) (S k) frho);
    [rewrite app_length, (proj1 Hr); cbn; lia|rewrite nth_error_app2 by (rewrite (proj1 Hr); lia); rewrite (proj1 Hr), Nat.sub_diag; reflexivity|].
  assert (Vrho9 : s9 (LFut frho) = Some (b_rho' U b T)) by kf.
  assert (Vneg9 : s9 (LFut (bi_neg1 c)) = Some (-1)%R) by kf.
  destruct (Req_EM_T (ip U b (b_v' U a b T)) 0) as [C|D3].
  { uax eu6 ew6 ek6. usc eu7 ew7 ek7. replace (eu6 (LFut frho)) with (Some (b_rho' U b T)) in ew7 by (symmetry; kx).
    replace (eu6 (LFut ft)) with (Some 0%R) in ew7 by (symmetry; rewrite <- C; kx). cbn [exact adiv Rdiv_opt] in ew7. destruct (Req_EM_T 0 0) as [_|Z0]; [|congruence].
    umv eu8 ek8. udot eg9 eq9 eu9 ek9. udot eg10 eq10 eu10 ek10. usc eu11 ew11 ek11. ubk. uax eu12 ew12 ek12.
    assert (HS : vector_undefined lg pl eu12 SOL) by (apply ew12; left; apply alpha_one_none; kx).
    ubk. uax eu13 ew13 ek13. assert (HS2 : vector_undefined lg pl eu13 SOL) by (apply ew13; right; left; uk).
    usc eu14 ew14 ek14. uax eu15 ew15 ek15. apply wp_ret. fin_lost. }
  apply wp_bind. apply (@wpx_axpy lg Hlg cs 5 pl Hw BI_R [bi_neg1 c; frho; ft] BI_V (-1 * b_rho' U b T / ip U b (b_v' U a b T)) (b_v' U a b T) (b_r T));
    [rng|rng|rng|rng|kv|kv|apply alpha_three; assumption|]. intros s10 V10 K10.
  assert (V10' : vector_is lg pl s10 BI_R (b_s U a b T)).
  { revert V10. apply (@vector_is_ext lg cs 5 pl Hw); [rng|]. intros u _. unfold b_s, b_alpha'. unfold Rdiv. ring. }
  clear V10. rename V10' into V10.
  apply wp_bind. apply (@wpx_scalar lg pl). intros s11 V11 K11. cbn [map on2] in V11.
  replace (s10 (LFut frho)) with (Some (b_rho' U b T)) in V11 by (symmetry; kf).
  replace (s10 (LFut ft)) with (Some (ip U b (b_v' U a b T))) in V11 by (symmetry; kf).
  cbn [exact adiv Rdiv_opt] in V11. destruct (Req_EM_T (ip U b (b_v' U a b T)) 0) as [C|_]; [contradiction|]. fold (b_alpha' U a b T) in V11.
  apply wp_bind. apply (@wpx_matvec lg Hlg cs Hre 5 pl Hw BI_U BI_R (b_s U a b T)); [rng|rng|rng|kv|]. intros s12 V12 K12. fold (b_t U a b T) in V12.
  apply wp_bind. apply (@wpx_dot lg Hlg red Hred cs 5 pl Hw BI_R BI_U (b_s U a b T) (b_t U a b T)); [exact Hn|rng|rng|kv|exact V12|].
  intros fn st13 s13 A5 A6 _ V13 K13. rewrite ip_sym in V13. cbn [next next_fut] in A5.
  apply wp_bind. apply (@wpx_dot lg Hlg red Hred cs 5 pl Hw BI_U BI_U (b_t U a b T) (b_t U a b T)); [exact Hn|rng|rng|kv|kv|].
  intros fd st14 s14 A7 A8 _ V14 K14.
  apply wp_bind. apply (@wpx_scalar lg pl). intros s15 V15 K15. cbn [map on2] in V15.
  replace (s14 (LFut fn)) with (Some (ip U (b_t U a b T) (b_s U a b T))) in V15 by (symmetry; kf).
  rewrite V14 in V15. cbn [exact adiv Rdiv_opt] in V15. destruct (Req_EM_T (ip U (b_t U a b T) (b_t U a b T)) 0) as [C|D4].
  2: { exfalso. apply D. split; [split; [exact D1|split; [exact D2|exact D3]]|exact D4]. }
  ubk. uax eu12 ew12 ek12. ubk. uax eu13 ew13 ek13.
  assert (HS2 : vector_undefined lg pl eu13 SOL) by (apply ew13; left; apply alpha_one_none; kx).
  usc eu14 ew14 ek14. uax eu15 ew15 ek15. apply wp_ret. fin_lost.
Qed.

Lemma bicg_steps_inv c st s : bi_inv 0 c st s -> forall k, (forall j, j < k -> bicg_defined U a x0 b j) -> wp (bicg_steps exact lg red k c) (bi_inv k) st s.
Proof.
  intros H0. induction k as [|k IH]; intros Hd; [apply wp_ret; exact H0|]. cbn [bicg_steps]. apply wp_bind.
  eapply wp_conseq; [apply IH; intros j Hj; apply Hd; lia|]. intros c' st' s' H. apply bicg_step_inv; [exact H|apply Hd; lia].
Qed.
Lemma bicg_run_inv st pl0 s k : set_up lg cs st pl0 -> vectors_hold lg s (sols_of cs) x0 -> vectors_hold lg s (rhss_of cs) b ->
  (forall j, j < k -> bicg_defined U a x0 b j) -> wp (bicg_run exact lg red pl0 k) (bi_inv k) st s.
Proof.
  intros Hs Hx Hb Hd. unfold bicg_run. apply wp_bind. eapply wp_conseq; [apply bicg_new_inv; eassumption|]. intros c st' s' H. apply bicg_steps_inv; assumption.
Qed.
Ltac ubl := apply wp_bind; first [apply wp_back_snoc | apply wp_back_any; [assumption|intros ?]].
Lemma bicg_step_lost c st s : bi_lost c s -> wp (bicg_step exact lg red c) (fun c' _ s' => bi_lost c' s') st s.
Proof.
  intros (Hw & C3 & Nr & Na & No & Hu). unfold bicg_step. set (pl := bi_pl c) in *. unfold scalar_div, scalar_mul, scalar_neg.
  udot eg0 eq0 eu0 ek0. ubl. usc eu1 ew1 ek1. ubl. ubl. usc eu2 ew2 ek2. usc eu3 ew3 ek3. usc eu4 ew4 ek4.
  uax eu5 ew5 ek5. uxp eu6 ew6 ek6. umv eu7 ek7. udot eg8 eq8 eu8 ek8. ubl. uax eu9 ew9 ek9. usc eu10 ew10 ek10. umv eu11 ek11.
  udot eg12 eq12 eu12 ek12. udot eg13 eq13 eu13 ek13. usc eu14 ew14 ek14. ubl. uax eu15 ew15 ek15.
  assert (HS : vector_undefined lg pl eu15 SOL) by (apply ew15; right; left; uk).
  ubl. uax eu16 ew16 ek16. assert (HS2 : vector_undefined lg pl eu16 SOL) by (apply ew16; right; left; uk).
  usc eu17 ew17 ek17. uax eu18 ew18 ek18. apply wp_ret. unfold bi_lost. cbn [bi_pl bi_rho bi_alpha bi_omega].
  split; [exact Hw|]. split; [exact C3|]. split; [destruct (bi_rho c); discriminate|]. split; [destruct (bi_alpha c); discriminate|]. split; [destruct (bi_omega c); discriminate|]. uk.
Qed.
Lemma bicg_run_lost st pl0 s k m : set_up lg cs st pl0 -> vectors_hold lg s (sols_of cs) x0 -> vectors_hold lg s (rhss_of cs) b ->
  (forall j, j < k -> bicg_defined U a x0 b j) -> ~ bicg_defined U a x0 b k -> k < m ->
  wp (bicg_run exact lg red pl0 m) (fun c' _ s' => bi_lost c' s') st s.
Proof.
  intros Hs Hx Hb Hd Hnd Hm. unfold bicg_run. apply wp_bind. eapply wp_conseq; [apply bicg_new_inv; eassumption|]. intros c st' s' H.
  induction m as [|m IH]; [lia|]. cbn [bicg_steps]. apply wp_bind. destruct (Nat.eq_dec m k) as [-> |Ne].
  - eapply wp_conseq; [apply bicg_steps_inv; eassumption|]. intros c2 st2 s2 H2. apply (bicg_step_break H2 Hnd).
  - eapply wp_conseq; [apply IH; lia|]. intros c2 st2 s2 H2. apply bicg_step_lost. exact H2.
Qed.
End BiCG.

(** ** C40 *)
Theorem C40_bicgstab_is_textbook : forall lg red (cs : list (setup_call (option R))) st pl0 s x0 b k,
  legion_ok lg -> legal_reduction exact red -> set_up lg cs st pl0 -> real_entries cs -> 0 < length (sols_of cs) ->
  vectors_hold lg s (sols_of cs) x0 -> vectors_hold lg s (rhss_of cs) b ->
  (forall j, j < k -> bicg_defined (unknowns lg cs) (operator cs) x0 b j) ->
  accepted (bicg_run exact lg red pl0 k) st /\
  forall c st' s', ends (bicg_run exact lg red pl0 k) st s c st' s' ->
    let t j := bicg_iter (unknowns lg cs) (operator cs) x0 b j in
    vectors_hold lg s' (sols_of cs) (b_x (t k)) /\ vectors_hold lg s' (rhss_of cs) b /\
    vector_is lg (bi_pl c) s' BI_R (b_r (t k)) /\ vector_is lg (bi_pl c) s' BI_P (b_p (t k)) /\ vector_is lg (bi_pl c) s' BI_V (b_v (t k)) /\
    vector_is lg (bi_pl c) s' BI_RT b /\
    length (bi_rho c) = S k /\ length (bi_alpha c) = S k /\ length (bi_omega c) = S k /\
    (forall j f, nth_error (bi_rho c) j = Some f -> s' (LFut f) = Some (b_rho (t j))) /\
    (forall j f, nth_error (bi_alpha c) j = Some f -> s' (LFut f) = Some (b_alpha (t j))) /\
    (forall j f, nth_error (bi_omega c) j = Some f -> s' (LFut f) = Some (b_omega (t j))).
Proof.
  intros lg red cs st pl0 s x0 b k Hlg Hred Hs Hre Hn Hx Hb Hd.
  assert (W := @bicg_run_inv lg Hlg red Hred cs Hre Hn x0 b st pl0 s k Hs Hx Hb Hd).
  split; [eapply wp_accepted; exact W|]. intros c st' s' He t. destruct (wp_ends W He) as [s1 [[Hw C3 C4 HX HB HRT HR HP HV _ [L1 N1] [L2 N2] [L3 N3]] E]].
  assert (VE : forall vi f, vector_is lg (bi_pl c) s1 vi f -> vector_is lg (bi_pl c) s' vi f) by (intros vi f; exact (@vector_is_eq lg (bi_pl c) s1 s' _ _ E)).
  split; [rewrite <- C3; apply (proj1 (@sol_vector_is lg (bi_pl c) s' _)); apply VE; exact HX|].
  split; [rewrite <- C4; apply (proj1 (@rhs_vector_is lg (bi_pl c) s' _)); apply VE; exact HB|].
  split; [apply VE; exact HR|]. split; [apply VE; exact HP|]. split; [apply VE; exact HV|]. split; [apply VE; exact HRT|].
  split; [exact L1|]. split; [exact L2|]. split; [exact L3|].
  split; [intros j f Hf; rewrite E; apply (N1 j f Hf)|]. split; intros j f Hf; rewrite E; [apply (N2 j f Hf)|apply (N3 j f Hf)].
Qed.

(** The stored residual is b - A (x - x0), hence the true residual when the initial guess is zero. *)
Theorem C40_residual : forall lg red (cs : list (setup_call (option R))) st pl0 s x0 b k,
  legion_ok lg -> legal_reduction exact red -> set_up lg cs st pl0 -> real_entries cs -> 0 < length (sols_of cs) ->
  vectors_hold lg s (sols_of cs) x0 -> vectors_hold lg s (rhss_of cs) b ->
  (forall j, j < k -> bicg_defined (unknowns lg cs) (operator cs) x0 b j) ->
  accepted (bicg_run exact lg red pl0 k) st /\
  exists x : unknown -> R, forall c st' s', ends (bicg_run exact lg red pl0 k) st s c st' s' ->
    vectors_hold lg s' (sols_of cs) x /\
    vector_is lg (bi_pl c) s' BI_R (fun u => b u - apply_op (unknowns lg cs) (operator cs) (fun v => x v - x0 v) u)%R.
Proof.
  intros lg red cs st pl0 s x0 b k Hlg Hred Hs Hre Hn Hx Hb Hd.
  destruct (@C40_bicgstab_is_textbook lg red cs st pl0 s x0 b k Hlg Hred Hs Hre Hn Hx Hb Hd) as [H1 H2]. split; [exact H1|].
  exists (b_x (bicg_iter (unknowns lg cs) (operator cs) x0 b k)). intros c st' s' He. destruct (H2 c st' s' He) as (K1 & _ & K2 & _). split; [exact K1|].
  intros i v p Hc Hp. rewrite (K2 i v p Hc Hp), bicg_residual_identity. reflexivity.
Qed.
Theorem C40_true_residual : forall lg red (cs : list (setup_call (option R))) st pl0 s b k,
  legion_ok lg -> legal_reduction exact red -> set_up lg cs st pl0 -> real_entries cs -> 0 < length (sols_of cs) ->
  vectors_hold lg s (sols_of cs) (fun _ => 0%R) -> vectors_hold lg s (rhss_of cs) b ->
  (forall j, j < k -> bicg_defined (unknowns lg cs) (operator cs) (fun _ => 0%R) b j) ->
  accepted (bicg_run exact lg red pl0 k) st /\
  exists x : unknown -> R, forall c st' s', ends (bicg_run exact lg red pl0 k) st s c st' s' ->
    vectors_hold lg s' (sols_of cs) x /\
    vector_is lg (bi_pl c) s' BI_R (fun u => b u - apply_op (unknowns lg cs) (operator cs) x u)%R.
Proof.
  intros lg red cs st pl0 s b k Hlg Hred Hs Hre Hn Hx Hb Hd.
  destruct (@C40_residual lg red cs st pl0 s _ b k Hlg Hred Hs Hre Hn Hx Hb Hd) as [H1 [x H2]]. split; [exact H1|]. exists x. intros c st' s' He.
  destruct (H2 c st' s' He) as [K1 K2]. split; [exact K1|]. intros i v p Hc Hp. rewrite (K2 i v p Hc Hp). do 2 f_equal. unfold apply_op. apply Rsum_ext.
  intros u _. f_equal. ring.
Qed.

(** ** C56.  In exact arithmetic BiCGStab always ends in a division by zero: after some number [k] of steps, less than
    the number of unknowns, it holds a defined iterate, and every longer run leaves every entry of the solution
    undefined. *)
Theorem C56_bicgstab_breaks_down : forall lg red (cs : list (setup_call (option R))) st pl0 s x0 b,
  legion_ok lg -> legal_reduction exact red -> set_up lg cs st pl0 -> real_entries cs -> 0 < length (sols_of cs) ->
  vectors_hold lg s (sols_of cs) x0 -> vectors_hold lg s (rhss_of cs) b -> unknowns lg cs <> [] ->
  exists k, k < length (unknowns lg cs) /\
    (forall m, m <= k -> accepted (bicg_run exact lg red pl0 m) st /\
       exists x : unknown -> R, forall c st' s', ends (bicg_run exact lg red pl0 m) st s c st' s' -> vectors_hold lg s' (sols_of cs) x) /\
    (forall m, k < m -> accepted (bicg_run exact lg red pl0 m) st /\
       forall c st' s', ends (bicg_run exact lg red pl0 m) st s c st' s' ->
         forall v p, In v (sols_of cs) -> In p (is_points lg (pv_space v)) -> s' (at_point v p) = None).
Proof.
  intros lg red cs st pl0 s x0 b Hlg Hred Hs Hre Hn Hx Hb Hu.
  assert (Hnd : NoDup (unknowns lg cs)) by (apply (@unknowns_nodup _ lg); assumption).
  destruct (@bicg_breaks _ (unknowns lg cs) (operator cs) x0 b unknown_dec Hnd) as (k & K1 & K2 & K3).
  { destruct (unknowns lg cs); [congruence|cbn; lia]. }
  exists k. split; [exact K1|]. split.
  - intros m Hm. destruct (@C40_residual lg red cs st pl0 s x0 b m Hlg Hred Hs Hre Hn Hx Hb) as [H1 [x H2]]; [intros j Hj; apply K2; lia|].
    split; [exact H1|]. exists x. intros c st' s' He. apply (H2 c st' s' He).
  - intros m Hm. assert (W := @bicg_run_lost lg Hlg red Hred cs Hre Hn x0 b st pl0 s k m Hs Hx Hb K2 K3 Hm).
    split; [eapply wp_accepted; exact W|]. intros c st' s' He v p Hv Hp. destruct (wp_ends W He) as [s1 [(Hw & C3 & _ & _ & _ & Q) E]].
    rewrite E. destruct (In_nth_error _ _ Hv) as [i Hi]. apply (Q i v p); [|exact Hp]. unfold component, get_vector, vector_row, SOL. cbn [obind]. rewrite C3, Hi. reflexivity.
Qed.

(** ** C57.  One step too many: if the iterate after [k] steps solves the system, every longer run leaves every entry of
    the solution undefined. *)
Theorem C57_bicgstab_past_convergence : forall lg red (cs : list (setup_call (option R))) st pl0 s x0 b k x,
  legion_ok lg -> legal_reduction exact red -> set_up lg cs st pl0 -> real_entries cs -> 0 < length (sols_of cs) ->
  vectors_hold lg s (sols_of cs) x0 -> vectors_hold lg s (rhss_of cs) b ->
  (forall c st' s', ends (bicg_run exact lg red pl0 k) st s c st' s' -> vectors_hold lg s' (sols_of cs) x) ->
  (forall u, In u (unknowns lg cs) -> apply_op (unknowns lg cs) (operator cs) (fun v => x v - x0 v)%R u = b u) ->
  forall m, k < m -> accepted (bicg_run exact lg red pl0 m) st /\
    forall c st' s', ends (bicg_run exact lg red pl0 m) st s c st' s' ->
      forall v p, In v (sols_of cs) -> In p (is_points lg (pv_space v)) -> s' (at_point v p) = None.
Proof.
  intros lg red cs st pl0 s x0 b k x Hlg Hred Hs Hre Hn Hx Hb Hk Hsol m Hm.
  assert (Hnd : NoDup (unknowns lg cs)) by (apply (@unknowns_nodup _ lg); assumption).
  assert (Hempty : unknowns lg cs = [] -> accepted (bicg_run exact lg red pl0 m) st /\ forall c st' s', ends (bicg_run exact lg red pl0 m) st s c st' s' ->
      forall v p, In v (sols_of cs) -> In p (is_points lg (pv_space v)) -> s' (at_point v p) = None).
  { intros Eu. split; [apply (@C54_bicgstab_runs _ exact lg red cs st pl0 s m Hlg Hs Hn)|]. intros c st' s' _ v p Hv Hp. exfalso.
    destruct (In_nth_error _ _ Hv) as [i Hi]. assert (HI : In (i, p) (unknowns lg cs)); [|rewrite Eu in HI; exact HI]. apply in_unknowns.
    split; [apply nth_error_Some; congruence|]. unfold space_of. rewrite (nth_error_nth _ _ _ Hi). exact Hp. }
  destruct (list_eq_dec unknown_dec (unknowns lg cs) []) as [Eu|Eu]; [apply Hempty; exact Eu|].
  destruct (@C54_bicgstab_runs _ exact lg red cs st pl0 s k Hlg Hs Hn) as [_ [(c0 & st0 & s0 & He0) _]].
  assert (Hx0 := Hk c0 st0 s0 He0).
  destruct (@bicg_breaks _ (unknowns lg cs) (operator cs) x0 b unknown_dec Hnd) as (kb & K1 & K2 & K3).
  { destruct (unknowns lg cs); [congruence|cbn; lia]. }
  destruct (Nat.lt_ge_cases kb k) as [L|L].
  - exfalso. assert (W := @bicg_run_lost lg Hlg red Hred cs Hre Hn x0 b st pl0 s kb k Hs Hx Hb K2 K3 L).
    destruct (wp_ends W He0) as [s1 [(Hw & C3 & _ & _ & _ & Q) E]]. destruct (unknowns lg cs) as [|[i p] us] eqn:EU; [congruence|].
    assert (HI : In (i, p) (unknowns lg cs)) by (rewrite EU; left; reflexivity). apply in_unknowns in HI. destruct HI as [Hi Hp].
    destruct (nth_error (sols_of cs) i) as [v|] eqn:Hv; [|apply nth_error_None in Hv; lia]. unfold space_of in Hp. rewrite (nth_error_nth _ _ _ Hv) in Hp.
    assert (A1 := Hx0 i v p Hv Hp). rewrite E, (Q i v p) in A1; [discriminate| |exact Hp]. unfold component, get_vector, vector_row, SOL. cbn [obind]. rewrite C3, Hv. reflexivity.
  - assert (Dk : forall j, j < k -> bicg_defined (unknowns lg cs) (operator cs) x0 b j) by (intros j Hj; apply K2; lia).
    assert (Nk : ~ bicg_defined (unknowns lg cs) (operator cs) x0 b k).
    { intros [D _]. revert D. apply zero_residual_breaks. intros [i p] Hu.
      destruct (@C40_bicgstab_is_textbook lg red cs st pl0 s x0 b k Hlg Hred Hs Hre Hn Hx Hb Dk) as [_ H2]. destruct (H2 c0 st0 s0 He0) as (K4 & _).
      assert (EX : forall v, In v (unknowns lg cs) -> x v = b_x (bicg_iter (unknowns lg cs) (operator cs) x0 b k) v).
      { intros [j q] Hv. apply in_unknowns in Hv. destruct Hv as [Hj Hq]. destruct (nth_error (sols_of cs) j) as [v|] eqn:Hv; [|apply nth_error_None in Hv; lia].
        unfold space_of in Hq. rewrite (nth_error_nth _ _ _ Hv) in Hq. assert (A1 := Hx0 j v q Hv Hq). rewrite (K4 j v q Hv Hq) in A1. congruence. }
      rewrite bicg_residual_identity. rewrite <- (Hsol _ Hu). change (apply_op (unknowns lg cs) (operator cs)) with (app_op (unknowns lg cs) (operator cs)).
      match goal with |- (?p - ?q)%R = 0%R => replace q with p; [ring|] end. apply app_ext. intros v Hv. unfold vsub. rewrite (EX v Hv). reflexivity. }
    assert (W := @bicg_run_lost lg Hlg red Hred cs Hre Hn x0 b st pl0 s k m Hs Hx Hb Dk Nk Hm).
    split; [eapply wp_accepted; exact W|]. intros c st' s' He v p Hv Hp. destruct (wp_ends W He) as [s1 [(Hw & C3 & _ & _ & _ & Q) E]].
    rewrite E. destruct (In_nth_error _ _ Hv) as [i Hi]. apply (Q i v p); [|exact Hp]. unfold component, get_vector, vector_row, SOL. cbn [obind]. rewrite C3, Hi. reflexivity.
Qed.

(** If the divisions of the first half of each of the first n = |unknowns| steps are defined and so are the second halves
    of the first n - 1, then the point reached in the middle of the n-th step, x + alpha p, solves the system; the second
    half of that step divides zero by zero. *)
Theorem C56_answer_in_the_half_step : forall lg (cs : list (setup_call (option R))) x0 b n,
  legion_ok lg -> length (unknowns lg cs) = S n ->
  let us := unknowns lg cs in
  let a := operator cs in
  let t := bicg_iter us a x0 b in
  (forall j, j < n -> bicg_defined us a x0 b j) -> half_defined us a b (t n) ->
  (forall u, In u us -> apply_op us a (fun v => (b_x (t n) v + b_alpha' us a b (t n) * b_p' us b (t n) v) - x0 v)%R u = b u) /\ ~ bicg_defined us a x0 b n.
Proof.
  intros lg cs x0 b n Hlg Hl us a t Hd Hh.
  assert (Hnd : NoDup us) by (apply (@unknowns_nodup _ lg); assumption).
  assert (Hz : vzero us (b_s us a b (t n))).
  { apply (@half_terminates _ us a x0 b unknown_dec Hnd); [exact Hl|]. intros j Hj. destruct (Nat.eq_dec j n) as [-> |Ne]; [exact Hh|apply (Hd j); lia]. }
  split.
  - intros u Hu. assert (E := half_residual_identity us a x0 b n u). fold t in E. rewrite (Hz u Hu) in E.
    change (apply_op us a) with (app_op us a). unfold vsub, vadd, vscal in E. lra.
  - intros [_ D]. apply D. apply zero_half_breaks. exact Hz.
Qed.
