(** PropsCG: properties C36 - C39 (conjugate gradients). *)
From Coq Require Import Reals Lra.
From Coq Require Import Floats.SpecFloat.
From Verif Require Import Base Index Outcome Sched Async Arith Launch Vector PartitionSpec VectorFacts LaunchFacts Matrix MatrixSpec MatrixFacts
  MatvecFacts Builder BuilderFacts Exec ExactSum LinAlg CGSpec CGMath Planner PlannerFacts PlannerSetup Solvers PropsVector PropsMatrix PropsPlanner PropsSolver SolverFacts.
Set Implicit Arguments.

(** component vectors [vs] hold the real numbers [f] *)
Definition vectors_hold (lg : legion) (s : store loc (option R)) (vs : list pvec) (f : unknown -> R) : Prop :=
  forall i v p, nth_error vs i = Some v -> In p (is_points lg (pv_space v)) -> s (at_point v p) = Some (f (i, p)).
Lemma sol_vector_is lg (pl : planner (option R)) s f : vector_is lg pl s 0 f <-> vectors_hold lg s (pl_sol pl) f.
Proof.
  unfold vector_is, vectors_hold, component, get_vector, vector_row. cbn [obind]. split; intros H i v p Hc Hp; apply (H i v p); auto.
  - rewrite Hc. reflexivity.
  - destruct (nth_error (pl_sol pl) i); [injection Hc as ->; reflexivity|discriminate].
Qed.
Lemma rhs_vector_is lg (pl : planner (option R)) s f : vector_is lg pl s 1 f <-> vectors_hold lg s (pl_rhs pl) f.
Proof.
  unfold vector_is, vectors_hold, component, get_vector, vector_row. cbn [obind]. split; intros H i v p Hc Hp; apply (H i v p); auto.
  - rewrite Hc. reflexivity.
  - destruct (nth_error (pl_rhs pl) i); [injection Hc as ->; reflexivity|discriminate].
Qed.
Section CG.
Variable lg : legion.
Hypothesis Hlg : legion_ok lg.
Variable red : nat -> list (option R) -> option R.
Hypothesis Hred : legal_reduction exact red.
Variable cs : list (setup_call (option R)).
Hypothesis Hre : real_entries cs.
Hypothesis Hn : 0 < length (sols_of cs).
Variables x0 b : unknown -> R.
Notation U := (unknowns lg cs).
Notation a := (operator cs).
Notation t k := (cg_iter U a x0 b k).
Notation rr k := (ip U (it_r (t k)) (it_r (t k))).
Notation store := (store loc (option R)).

Record cg_inv (k : nat) (c : cg (option R)) (st : ist) (s : store) : Prop := mk_cg_inv {
  ci_working : working lg cs 3 (cg_pl c);
  ci_sol : pl_sol (cg_pl c) = sols_of cs;
  ci_rhs : pl_rhs (cg_pl c) = rhss_of cs;
  ci_x : vector_is lg (cg_pl c) s SOL (it_x (t k));
  ci_b : vector_is lg (cg_pl c) s RHS b;
  ci_r : vector_is lg (cg_pl c) s CG_R (it_r (t k));
  ci_p : vector_is lg (cg_pl c) s CG_P (it_p (t k));
  ci_neg1 : s (LFut (cg_neg1 c)) = Some (-1)%R /\ cg_neg1 c < next_fut st;
  ci_len : length (cg_norms c) = S k;
  ci_norms : forall j f, nth_error (cg_norms c) j = Some f -> f < next_fut st /\ s (LFut f) = Some (rr j) }.

Lemma cg_new_inv st pl0 s : set_up lg cs st pl0 -> vectors_hold lg s (sols_of cs) x0 -> vectors_hold lg s (rhss_of cs) b ->
  wp (cg_new exact lg red pl0) (cg_inv 0) st s.
Proof.
  intros Hs Hx Hb. unfold cg_new, scalar_const. apply wp_bind. apply wp_scalar_task. intros s1 E1 F1. cbn [exact aneg a1 lift1] in E1.
  apply wp_bind. apply (@wp_allocate _ lg cs (next st) pl0 3 _ s1); [apply (@set_up_next _ lg cs st); [cbn; lia|exact Hs]|].
  intros pl st1 Hw C3 C4 N1. cbn [next next_fut] in N1.
  assert (K : forall vs f, vectors_hold lg s vs f -> vectors_hold lg s1 vs f) by (intros vs f H i v p Hv Hp; rewrite F1 by discriminate; apply (H i v p Hv Hp)).
  assert (X1 : vector_is lg pl s1 SOL x0) by (apply sol_vector_is; rewrite C3; apply K; exact Hx).
  assert (B1 : vector_is lg pl s1 RHS b) by (apply rhs_vector_is; rewrite C4; apply K; exact Hb).
  apply wp_bind. apply (@wpx_copy lg Hlg cs 3 pl Hw CG_P RHS b); [unfold CG_P; lia|unfold RHS; lia|discriminate|exact B1|]. intros s2 P2 [K2 F2].
  apply wp_bind. apply (@wpx_copy lg Hlg cs 3 pl Hw CG_R RHS b); [unfold CG_R; lia|unfold RHS; lia|discriminate|apply K2; [unfold RHS; lia|discriminate|exact B1]|]. intros s3 R3 [K3 F3].
  apply wp_bind. apply (@wpx_dot lg Hlg red Hred cs 3 pl Hw CG_R CG_R b b); [exact Hn|unfold CG_R; lia|unfold CG_R; lia|exact R3|exact R3|].
  intros f st2 s4 L1 L2 _ D4 [K4 F4]. apply wp_ret. constructor; cbn [cg_pl cg_norms cg_neg1]; auto.
  - apply K4, K3; [unfold SOL; lia|discriminate|]. apply K2; [unfold SOL; lia|discriminate|exact X1].
  - apply K4, K3; [unfold RHS; lia|discriminate|]. apply K2; [unfold RHS; lia|discriminate|exact B1].
  - apply K4, K3; [unfold CG_P; lia|discriminate|exact P2].
  - split; [rewrite F4, F3, F2 by lia; exact E1|lia].
  - intros [|j] g Hg; [|destruct j; discriminate]. injection Hg as <-. split; [exact L2|exact D4].
Qed.

Lemma back_snoc X (l : list X) j x : length l = S j -> nth_error l j = Some x -> rev l = x :: rev (firstn j l).
Proof.
  clear. intros L H. assert (E : l = firstn j l ++ [x]).
  { rewrite <- (firstn_skipn j l) at 1. f_equal. assert (Ls : length (skipn j l) = 1) by (rewrite skipn_length; lia).
    destruct (skipn j l) as [|y [|z w]] eqn:Es; cbn in Ls; try lia. rewrite <- (firstn_skipn j l), Es in H.
    rewrite nth_error_app2 in H by (rewrite firstn_length; lia). rewrite firstn_length, Nat.min_l, Nat.sub_diag in H by lia. cbn in H. congruence. }
  rewrite E at 1. rewrite rev_app_distr. reflexivity.
Qed.
Lemma wp_back X (l : list X) j x (Q : X -> ist -> store -> Prop) st s : length l = S j -> nth_error l j = Some x -> Q x st s -> wp (back (option R) l) Q st s.
Proof. intros L H HQ. unfold back. eapply wp_lift; [rewrite (back_snoc l L H); reflexivity|exact HQ]. Qed.

Lemma cg_step_inv k c st s : cg_inv k c st s -> cg_defined U a x0 b k -> wp (cg_step exact lg red c) (cg_inv (S k)) st s.
Proof.
  intros [Hw C3 C4 HX HB HR HP [E1 L1] HL HN] [D1 D2]. unfold cg_step. set (pl := cg_pl c) in *.
  apply wp_bind. apply (@wpx_matvec lg Hlg cs Hre 3 pl Hw CG_Q CG_P (it_p (t k))); [unfold CG_Q; lia|unfold CG_P; lia|discriminate|exact HP|]. intros s1 Q1 [K1 F1].
  assert (P1 : vector_is lg pl s1 CG_P (it_p (t k))) by (apply K1; [unfold CG_P; lia|discriminate|exact HP]).
  apply wp_bind. apply (@wpx_dot lg Hlg red Hred cs 3 pl Hw CG_P CG_Q (it_p (t k)) (app_op U a (it_p (t k)))); [exact Hn|unfold CG_P; lia|unfold CG_Q; lia|exact P1|exact Q1|].
  intros fp st2 s2 A1 A2 _ V2 [K2 F2].
  destruct (nth_error (cg_norms c) k) as [fo|] eqn:En; [|apply nth_error_None in En; lia].
  destruct (HN k fo En) as [No Vo].
  apply wp_bind. apply (@wp_back _ (cg_norms c) k fo _ _ _ HL En).
  assert (Vo2 : s2 (LFut fo) = Some (rr k)) by (rewrite F2, F1 by exact No; exact Vo).
  assert (Vn2 : s2 (LFut (cg_neg1 c)) = Some (-1)%R) by (rewrite F2, F1 by exact L1; exact E1).
  apply wp_bind. apply (@wpx_axpy lg Hlg cs 3 pl Hw SOL [fo; fp] CG_P (rr k / ip U (it_p (t k)) (app_op U a (it_p (t k)))) (it_p (t k)) (it_x (t k)));
    [unfold SOL; lia|unfold CG_P; lia|discriminate|cbn; lia| | |apply alpha_two; assumption|].
  { apply K2, K1; [unfold SOL; lia|discriminate|exact HX]. }
  { apply K2. exact P1. }
  intros s3 X3 [K3 F3].
  apply wp_bind. apply (@wpx_axpy lg Hlg cs 3 pl Hw CG_R [cg_neg1 c; fo; fp] CG_Q (-1 * rr k / ip U (it_p (t k)) (app_op U a (it_p (t k)))) (app_op U a (it_p (t k))) (it_r (t k)));
    [unfold CG_R; lia|unfold CG_Q; lia|discriminate|cbn; lia| | |apply alpha_three; rewrite ?F3; assumption|].
  { apply K3; [unfold CG_R; lia|discriminate|]. apply K2, K1; [unfold CG_R; lia|discriminate|exact HR]. }
  { apply K3; [unfold CG_Q; lia|discriminate|]. apply K2. exact Q1. }
  intros s4 R4 [K4 F4].
  assert (R4' : vector_is lg pl s4 CG_R (it_r (t (S k)))).
  { revert R4. apply (@vector_is_ext lg cs 3 pl Hw); [unfold CG_R; lia|]. intros u _. cbn [cg_iter cg_next it_r]. unfold Rdiv. ring. }
  apply wp_bind. apply (@wpx_dot lg Hlg red Hred cs 3 pl Hw CG_R CG_R (it_r (t (S k))) (it_r (t (S k)))); [exact Hn|unfold CG_R; lia|unfold CG_R; lia|exact R4'|exact R4'|].
  intros fn st5 s5 A3 A4 _ V5 [K5 F5].
  assert (No5 : fo < next_fut st2) by lia.
  assert (Vo5 : s5 (LFut fo) = Some (rr k)) by (rewrite F5, F4, F3 by lia; exact Vo2).
  apply wp_bind. apply (@wpx_xpay lg Hlg cs 3 pl Hw CG_P [fn; fo] CG_R (rr (S k) / rr k) (it_r (t (S k))) (it_p (t k)));
    [unfold CG_P; lia|unfold CG_R; lia|discriminate|cbn; lia| | |apply alpha_two; assumption|].
  { apply K5, K4; [unfold CG_P; lia|discriminate|]. apply K3; [unfold CG_P; lia|discriminate|]. apply K2. exact P1. }
  { apply K5. exact R4'. }
  intros s6 P6 [K6 F6]. apply wp_ret.
  constructor; cbn [cg_pl cg_norms cg_neg1]; auto.
  - apply K6; [unfold SOL; lia|discriminate|]. apply K5, K4; [unfold SOL; lia|discriminate|]. exact X3.
  - apply K6; [unfold RHS; lia|discriminate|]. apply K5, K4; [unfold RHS; lia|discriminate|]. apply K3; [unfold RHS; lia|discriminate|].
    apply K2, K1; [unfold RHS; lia|discriminate|exact HB].
  - apply K6; [unfold CG_R; lia|discriminate|]. apply K5. exact R4'.
  - split; [|lia]. rewrite F6, F5, F4, F3 by lia. exact Vn2.
  - rewrite app_length, HL. cbn. lia.
  - intros j f Hf. destruct (Nat.lt_ge_cases j (S k)) as [Hj|Hj].
    + rewrite nth_error_app1 in Hf by lia. destruct (HN j f Hf) as [N V]. split; [lia|]. rewrite F6, F5, F4, F3, F2, F1 by lia. exact V.
    + rewrite nth_error_app2 in Hf by lia. rewrite HL in Hf. destruct (j - S k) as [|i] eqn:Ej; [|destruct i; discriminate]. injection Hf as <-.
      assert (j = S k) by lia. subst j. split; [lia|]. rewrite F6. exact V5.
Qed.
Lemma cg_steps_inv c st s : cg_inv 0 c st s -> forall k, (forall j, j < k -> cg_defined U a x0 b j) -> wp (cg_steps exact lg red k c) (cg_inv k) st s.
Proof.
  intros H0. induction k as [|k IH]; intros Hd; [apply wp_ret; exact H0|]. cbn [cg_steps]. apply wp_bind.
  eapply wp_conseq; [apply IH; intros j Hj; apply Hd; lia|]. intros c' st' s' H. apply cg_step_inv; [exact H|apply Hd; lia].
Qed.
Lemma cg_run_inv st pl0 s k : set_up lg cs st pl0 -> vectors_hold lg s (sols_of cs) x0 -> vectors_hold lg s (rhss_of cs) b ->
  (forall j, j < k -> cg_defined U a x0 b j) -> wp (cg_run exact lg red pl0 k) (cg_inv k) st s.
Proof.
  intros Hs Hx Hb Hd. unfold cg_run. apply wp_bind. eapply wp_conseq; [apply cg_new_inv; eassumption|]. intros c st' s' H. apply cg_steps_inv; assumption.
Qed.
End CG.

Lemma vector_is_eq lg (pl : planner (option R)) s s' vi f : (forall l, s' l = s l) -> vector_is lg pl s vi f -> vector_is lg pl s' vi f.
Proof. intros E H i v p Hc Hp. rewrite E. apply H; assumption. Qed.

(** ** The code computes the textbook iteration (started with residual [b]) as long as no denominator vanishes. *)
Theorem C36_cg_is_textbook_cg : forall lg red (cs : list (setup_call (option R))) st pl0 s x0 b k,
  legion_ok lg -> legal_reduction exact red -> set_up lg cs st pl0 -> real_entries cs -> 0 < length (sols_of cs) ->
  vectors_hold lg s (sols_of cs) x0 -> vectors_hold lg s (rhss_of cs) b ->
  (forall j, j < k -> cg_defined (unknowns lg cs) (operator cs) x0 b j) ->
  accepted (cg_run exact lg red pl0 k) st /\
  forall c st' s', ends (cg_run exact lg red pl0 k) st s c st' s' ->
    let t j := cg_iter (unknowns lg cs) (operator cs) x0 b j in
    vectors_hold lg s' (sols_of cs) (it_x (t k)) /\ vectors_hold lg s' (rhss_of cs) b /\
    vector_is lg (cg_pl c) s' CG_R (it_r (t k)) /\ vector_is lg (cg_pl c) s' CG_P (it_p (t k)) /\
    length (cg_norms c) = S k /\
    forall j f, nth_error (cg_norms c) j = Some f -> s' (LFut f) = Some (ip (unknowns lg cs) (it_r (t j)) (it_r (t j))).
Proof.
  intros lg red cs st pl0 s x0 b k Hlg Hred Hs Hre Hn Hx Hb Hd.
  assert (W := @cg_run_inv lg Hlg red Hred cs Hre Hn x0 b st pl0 s k Hs Hx Hb Hd).
  split; [eapply wp_accepted; exact W|]. intros c st' s' He t. destruct (wp_ends W He) as [s1 [[Hw C3 C4 HX HB HR HP _ HL HN] E]].
  split; [rewrite <- C3; apply (proj1 (@sol_vector_is lg (cg_pl c) s' _)); exact (@vector_is_eq lg (cg_pl c) s1 s' _ _ E HX)|].
  split; [rewrite <- C4; apply (proj1 (@rhs_vector_is lg (cg_pl c) s' _)); exact (@vector_is_eq lg (cg_pl c) s1 s' _ _ E HB)|].
  split; [exact (@vector_is_eq lg (cg_pl c) s1 s' _ _ E HR)|]. split; [exact (@vector_is_eq lg (cg_pl c) s1 s' _ _ E HP)|]. split; [exact HL|].
  intros j f Hf. rewrite E. apply (HN j f Hf).
Qed.

(** ** C36.  With a zero initial guess the stored residual is b - A x for the current solution x, and entry j of
    residual_norm_squared is the squared norm of the residual after j steps. *)
Theorem C36_true_residual : forall lg red (cs : list (setup_call (option R))) st pl0 s b k,
  legion_ok lg -> legal_reduction exact red -> set_up lg cs st pl0 -> real_entries cs -> 0 < length (sols_of cs) ->
  vectors_hold lg s (sols_of cs) (fun _ => 0%R) -> vectors_hold lg s (rhss_of cs) b ->
  (forall j, j < k -> cg_defined (unknowns lg cs) (operator cs) (fun _ => 0%R) b j) ->
  accepted (cg_run exact lg red pl0 k) st /\
  exists x : nat -> unknown -> R, (* the solution after j steps *)
    (forall j c st' s', j <= k -> ends (cg_run exact lg red pl0 j) st s c st' s' ->
      vectors_hold lg s' (sols_of cs) (x j) /\
      vector_is lg (cg_pl c) s' CG_R (fun u => b u - apply_op (unknowns lg cs) (operator cs) (x j) u)%R /\
      length (cg_norms c) = S j /\
      forall i f, nth_error (cg_norms c) i = Some f ->
        s' (LFut f) = Some (Rsum (fun u => (b u - apply_op (unknowns lg cs) (operator cs) (x i) u) * (b u - apply_op (unknowns lg cs) (operator cs) (x i) u))%R (unknowns lg cs))).
Proof.
  intros lg red cs st pl0 s b k Hlg Hred Hs Hre Hn Hx Hb Hd.
  split; [apply (@C36_cg_is_textbook_cg lg red cs st pl0 s _ b k Hlg Hred Hs Hre Hn Hx Hb Hd)|].
  exists (fun j => it_x (cg_iter (unknowns lg cs) (operator cs) (fun _ => 0%R) b j)). intros j c st' s' Hj He.
  destruct (@C36_cg_is_textbook_cg lg red cs st pl0 s _ b j Hlg Hred Hs Hre Hn Hx Hb) as [_ H]; [intros i Hi; apply Hd; lia|].
  destruct (H c st' s' He) as [H1 [H2 [H3 [H4 [H5 H6]]]]].
  assert (E : forall i u, it_r (cg_iter (unknowns lg cs) (operator cs) (fun _ => 0%R) b i) u = (b u - apply_op (unknowns lg cs) (operator cs) (it_x (cg_iter (unknowns lg cs) (operator cs) (fun _ => 0%R) b i)) u)%R).
  { intros i u. rewrite residual_identity. f_equal. unfold apply_op, app_op. apply Rsum_ext. intros v _. unfold vsub. f_equal. ring. }
  split; [exact H1|]. split.
  - intros i v p Hc Hp. rewrite (H3 i v p Hc Hp), E. reflexivity.
  - split; [exact H5|]. intros i f Hf. rewrite (H6 i f Hf). f_equal. apply Rsum_ext. intros u _. rewrite E. reflexivity.
Qed.

(** ** C37.  What happens with a non-zero initial guess x0: the vector the solver iterates on is b - A (x - x0); it is
    the true residual exactly when A x0 = 0. *)
Theorem C37_initial_guess : forall lg red (cs : list (setup_call (option R))) st pl0 s x0 b k,
  legion_ok lg -> legal_reduction exact red -> set_up lg cs st pl0 -> real_entries cs -> 0 < length (sols_of cs) ->
  vectors_hold lg s (sols_of cs) x0 -> vectors_hold lg s (rhss_of cs) b ->
  (forall j, j < k -> cg_defined (unknowns lg cs) (operator cs) x0 b j) ->
  exists x : unknown -> R, forall c st' s', ends (cg_run exact lg red pl0 k) st s c st' s' ->
    vectors_hold lg s' (sols_of cs) x /\
    vector_is lg (cg_pl c) s' CG_R (fun u => b u - apply_op (unknowns lg cs) (operator cs) (fun v => x v - x0 v) u)%R /\
    (vector_is lg (cg_pl c) s' CG_R (fun u => b u - apply_op (unknowns lg cs) (operator cs) x u)%R <->
     forall u, In u (unknowns lg cs) -> apply_op (unknowns lg cs) (operator cs) x0 u = 0%R).
Proof.
  intros lg red cs st pl0 s x0 b k Hlg Hred Hs Hre Hn Hx Hb Hd.
  exists (it_x (cg_iter (unknowns lg cs) (operator cs) x0 b k)). intros c st' s' He.
  assert (W := @cg_run_inv lg Hlg red Hred cs Hre Hn x0 b st pl0 s k Hs Hx Hb Hd). destruct (wp_ends W He) as [s1 [[Hw _ _ _ _ _ _ _ _ _] _]].
  destruct (@C36_cg_is_textbook_cg lg red cs st pl0 s x0 b k Hlg Hred Hs Hre Hn Hx Hb Hd) as [_ H].
  destruct (H c st' s' He) as [H1 [H2 [H3 _]]]. set (x := it_x (cg_iter (unknowns lg cs) (operator cs) x0 b k)) in *.
  assert (H3' : vector_is lg (cg_pl c) s' CG_R (fun u => b u - apply_op (unknowns lg cs) (operator cs) (fun v => x v - x0 v) u)%R).
  { intros i v p Hc Hp. rewrite (H3 i v p Hc Hp), residual_identity. reflexivity. }
  split; [exact H1|]. split; [exact H3'|].
  assert (L : CG_R < 2 + 3) by (unfold CG_R; lia).
  split.
  - intros H4 [i p] Hu. apply in_unknowns in Hu. destruct Hu as [Hi Hp]. unfold space_of in Hp. rewrite <- (pts_space Hw Hi) in Hp.
    assert (A1 := proj1 (@vector_is_cell lg cs 3 _ Hw s' CG_R _ L) H3' i p Hi Hp). assert (A2 := proj1 (@vector_is_cell lg cs 3 _ Hw s' CG_R _ L) H4 i p Hi Hp).
    rewrite A1 in A2. injection A2 as A2. revert A2. change (fun v => x v - x0 v)%R with (vsub x x0).
    change (apply_op (unknowns lg cs) (operator cs)) with (app_op (unknowns lg cs) (operator cs)). rewrite app_sub. lra.
  - intros H4. revert H3'. apply (@vector_is_ext lg cs 3 _ Hw); [exact L|]. intros u Hu. change (fun v => x v - x0 v)%R with (vsub x x0).
    specialize (H4 u Hu). revert H4. change (apply_op (unknowns lg cs) (operator cs)) with (app_op (unknowns lg cs) (operator cs)). rewrite app_sub. lra.
Qed.
