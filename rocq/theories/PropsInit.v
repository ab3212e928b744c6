(** PropsInit: properties C72 (what the tasks of a solver run touch) and C74 (the results do not depend on what the memory held before). *)
From Verif Require Import Base Index Outcome Sched Async Arith Launch Vector PartitionSpec VectorFacts LaunchFacts Matrix MatrixSpec MatrixFacts
  MatvecFacts Builder BuilderFacts Exec Planner PlannerFacts PlannerSetup Solvers PropsMatrix PropsPlanner PropsSolver InitFacts.
Set Implicit Arguments.

(** ** Specification *)
(** the data the user supplies: the elements of the solution and right-hand-side vectors added to the planner *)
Definition user_data {T} (lg : legion) (cs : list (setup_call T)) (l : loc) : Prop :=
  exists v p, (In v (sols_of cs) \/ In v (rhss_of cs)) /\ In p (is_points lg (pv_space v)) /\ l = at_point v p.
(** What must hold of a sequence of launches: point task [c] reads and writes only elements of its own pieces of the regions its launch names, with a privilege
    that allows it, and only scalars its launch names; two point tasks of a launch never touch the same location with one of them writing; no launch names one
    field of one region twice with one of them writing; and nothing is read that is neither in [given] nor written by an earlier launch of the sequence. *)
Record well_behaved {T} (given : loc -> Prop) (lns : list (launch T)) : Prop := mk_well_behaved {
  wb_privileges : forall ln, In ln lns -> privileges_respected ln;
  wb_tasks : forall ln i j ti tj l, In ln lns -> i <> j -> nth_error (ln_tasks ln) i = Some ti -> nth_error (ln_tasks ln) j = Some tj ->
    (exists st, In st ti /\ tgt st = l) -> ~ (exists st, In st tj /\ (tgt st = l \/ In l (rds st)));
  wb_requirements : forall ln, In ln lns -> interfering (ln_reqs ln) = false;
  wb_initialised : forall i ln l, nth_error lns i = Some ln -> reads_of ln l ->
    given l \/ exists j ln', j < i /\ nth_error lns j = Some ln' /\ writes_of ln' l }.

(** ** Proofs *)
Lemma good_well_behaved T (given : loc -> Prop) (lns : list (launch T)) : Forall good_launch lns -> fed given lns -> well_behaved given lns.
Proof.
  intros Hg F. rewrite Forall_forall in Hg. constructor.
  - intros ln Hin. apply Hg. exact Hin.
  - intros ln i j ti tj l Hin Hij Hi Hj [st [Hst Ht]] [st' [Hst' Hl]]. destruct (Hg ln Hin) as [_ Hni].
    destruct (Hni i j ti tj l Hij Hi Hj) as [N1 N2]; [exists st; auto|]. destruct Hl as [Hl|Hl]; [apply N1|apply N2]; exists st'; auto.
  - intros ln Hin. eapply fed_legal; eassumption.
  - apply fed_spec. exact F.
Qed.

Section Any.
Variable T : Type.
Variable A : arith T.
Variable lg : legion.
Variable red : nat -> list T -> T.
Variable cs : list (setup_call T).
Hypothesis Hlg : legion_ok lg.
Hypothesis Hn : 0 < length (sols_of cs).

Lemma iwp_allocate st pl0 nw (Q : planner T -> ist -> (loc -> Prop) -> Prop) (D : loc -> Prop) : set_up lg cs st pl0 ->
  (forall pl st' (D' : loc -> Prop), (forall l, D l -> D' l) -> working lg cs nw pl -> Q pl st' D') -> iwp (allocate_workspace lg pl0 nw : M T _) Q st D.
Proof.
  intros Hs HQ pl lns st' E. assert (Hw : working lg cs nw pl) by (exists st, pl0; eexists; eexists; split; [exact Hs|exact E]).
  destruct (allocate_ready nw Hs) as [E' _]. rewrite E' in E. injection E as <- <- <-. split; [exact I|]. intros D' Hd. apply HQ; auto.
Qed.
Lemma iwp_back X (l : list X) (Q : X -> ist -> (loc -> Prop) -> Prop) st (D : loc -> Prop) : (forall x, In x l -> upward Q x st D) -> iwp (back T l) Q st D.
Proof.
  intros H. unfold back. apply iwp_lift. intros x E. apply H. destruct (rev l) as [|y r] eqn:Er; [discriminate|]. injection E as <-.
  rewrite <- (rev_involutive l), Er. cbn. apply in_or_app. right. left. reflexivity.
Qed.
Definition cov (D : loc -> Prop) : Prop := forall l, user_data lg cs l -> D l.
Lemma cov_mono (D D' : loc -> Prop) : (forall l, D l -> D' l) -> cov D -> cov D'.
Proof. intros H K l Hl. apply H, K, Hl. Qed.
Lemma user_rows nw pl (D : loc -> Prop) : working lg cs nw pl -> cov D ->
  row_in lg pl (length (sols_of cs)) D SOL /\ row_in lg pl (length (sols_of cs)) D RHS.
Proof.
  intros Hw HD. destruct (working_ready Hw) as [R [_ [E1 E2]]]. split; intros i Hi p Hp; apply HD.
  - exists (vec pl SOL i), p. split; [left|split; [exact Hp|reflexivity]]. rewrite <- E1. pose proof (get_vector_vec R (vi := SOL) (i := i)) as G. unfold SOL in *.
    specialize (G ltac:(lia) Hi). unfold get_vector, vector_row in G. cbn [obind] in G. destruct (nth_error (pl_sol pl) i) as [v|] eqn:En; [|discriminate]. injection G as <-. eapply nth_error_In; exact En.
  - exists (vec pl RHS i), p. split; [right|split; [exact Hp|reflexivity]]. rewrite <- E2. pose proof (get_vector_vec R (vi := RHS) (i := i)) as G. unfold RHS in *.
    specialize (G ltac:(lia) Hi). unfold get_vector, vector_row in G. cbn [obind] in G. destruct (nth_error (pl_rhs pl) i) as [v|] eqn:En; [|discriminate]. injection G as <-. eapply nth_error_In; exact En.
Qed.
Lemma last_in (D : loc -> Prop) l x : (forall m, In m l -> D (LFut m)) -> D (LFut x) -> forall m, In m (l ++ [x]) -> D (LFut m).
Proof. intros H Hx m Hm. apply in_app_or in Hm. destruct Hm as [Hm|[<-|[]]]; auto. Qed.
Lemma iwp_back_fut (l : list scalar) (Q : nat -> ist -> (loc -> Prop) -> Prop) st (D : loc -> Prop) : (forall m, In m l -> D (LFut m)) ->
  (forall x (D' : loc -> Prop), (forall l, D l -> D' l) -> D' (LFut x) -> Q x st D') -> iwp (back T l) Q st D.
Proof. intros H HQ. apply iwp_back. intros x Hx D' Hd. apply HQ; auto. Qed.
(** facts about an earlier [D0] carried to a later [D] *)
Ltac up := repeat match goal with
  | H : forall l, ?D0 l -> ?D l, K : row_in _ _ _ ?D0 ?v |- _ => apply (row_in_mono _ H) in K
  | H : forall l, ?D0 l -> ?D l, K : ?D0 (LFut ?m) |- _ => apply H in K
  | H : forall l, ?D0 l -> ?D l, K : forall m, In m ?fs -> ?D0 (LFut m) |- _ => assert (forall m, In m fs -> D (LFut m)) by (intros ? ?; apply H, K; assumption); clear K
  | H : forall l, ?D0 l -> ?D l, K : cov ?D0 |- _ => apply (cov_mono _ H) in K
  | H : forall l, ?D0 l -> ?D l |- _ => clear H
  end.
Ltac rng := unfold SOL, RHS, CG_P, CG_Q, CG_R, BI_P, BI_R, BI_RT, BI_U, BI_V, krylov_basis in *; cbn [length]; lia.
Ltac ins := try assumption; try (apply last_in; assumption); try (intros ? [<-|[]]; assumption); try (intros ? [<-|[<-|[]]]; assumption); try (intros ? [<-|[<-|[<-|[]]]]; assumption); try (intros ? []).
Ltac step R :=
  match goal with
  | |- iwp (bind _ _) _ _ _ => apply iwp_bind
  | |- iwp (pl_zero_fill _ _ _ _) _ _ _ => apply (iwp_zero_fill A Hlg R Hn); [rng|intros ? ? ? ?; up]
  | |- iwp (pl_copy _ _ _ _ _) _ _ _ => apply (iwp_copy A Hlg R Hn); [rng|rng|ins|intros ? ? ? ?; up]
  | |- iwp (pl_scal _ _ _ _ _) _ _ _ => apply (iwp_scal A Hlg R Hn); [rng|ins|ins|intros ? ? ? ?; up]
  | |- iwp (pl_axpy _ _ _ _ _ _) _ _ _ => apply (iwp_axpy A Hlg R Hn); [rng|rng|ins|ins|ins|intros ? ? ? ?; up]
  | |- iwp (pl_xpay _ _ _ _ _ _) _ _ _ => apply (iwp_xpay A Hlg R Hn); [rng|rng|ins|ins|ins|intros ? ? ? ?; up]
  | |- iwp (pl_matvec _ _ _ _ _) _ _ _ => apply (iwp_matvec A Hlg R Hn); [rng|rng|ins|intros ? ? ? ?; up]
  | |- iwp (pl_dot _ _ _ _ _ _) _ _ _ => apply (iwp_dot A Hlg red R Hn); [rng|rng|ins|ins|intros ? ? ? ? ?; up]
  | |- iwp (back _ _) _ _ _ => apply iwp_back_fut; [ins|intros ? ? ? ?; up]
  | |- iwp (scalar_task _ _) _ _ _ => apply iwp_scalar_task; [ins|intros ? ? ? _ ? ?; up]
  end.
Ltac go R := unfold scalar_const, scalar_div, scalar_mul, scalar_neg, scalar_sqrt, scalar_rsqrt; repeat step R.

(** what the solver objects hold on to *)
Definition cg_inv (c : cg T) (D : loc -> Prop) : Prop :=
  working lg cs 3 (cg_pl c) /\ cov D /\ row_in lg (cg_pl c) (length (sols_of cs)) D CG_P /\ row_in lg (cg_pl c) (length (sols_of cs)) D CG_R /\
  D (LFut (cg_neg1 c)) /\ forall m, In m (cg_norms c) -> D (LFut m).
Lemma cg_run_init st pl0 k (D : loc -> Prop) : set_up lg cs st pl0 -> cov D -> iwp (cg_run A lg red pl0 k) (fun c _ D' => cg_inv c D') st D.
Proof.
  intros Hs HU. unfold cg_run. apply iwp_bind. eapply iwp_conseq with (Q1 := fun c _ D' => cg_inv c D').
  - unfold cg_new, scalar_const. apply iwp_bind. apply iwp_scalar_task; [intros ? []|]. intros neg1 st1 D1 Er H1 Hneg. up. apply iwp_bind.
    apply iwp_allocate; [apply (@set_up_next _ lg cs st); [lia|exact Hs]|]. intros pl st2 D2 H2 Hw. up. destruct (working_ready Hw) as [R _].
    destruct (user_rows Hw HU) as [RS RR]. go R. apply iwp_ret. intros ? ?. up. repeat split; ins. 
  - intros c st1 D1 Hc. induction k as [|k IH]; [apply iwp_ret; intros D2 Hm; destruct Hc as [Hw [K1 [K2 [K3 [K4 K5]]]]]; up; repeat split; assumption|].
    cbn [cg_steps]. apply iwp_bind. eapply iwp_conseq; [exact IH|]. clear IH c st1 D1 Hc. intros c st1 D1 [Hw [K1 [K2 [K3 [K4 K5]]]]].
    destruct (working_ready Hw) as [R _]. destruct (user_rows Hw K1) as [RS RR]. unfold cg_step. go R. apply iwp_ret. intros ? ?. up. repeat split; cbn [cg_pl cg_norms cg_neg1]; ins.
Qed.
Definition bicg_inv (c : bicg T) (D : loc -> Prop) : Prop :=
  working lg cs 5 (bi_pl c) /\ cov D /\ row_in lg (bi_pl c) (length (sols_of cs)) D BI_P /\ row_in lg (bi_pl c) (length (sols_of cs)) D BI_R /\
  row_in lg (bi_pl c) (length (sols_of cs)) D BI_RT /\ row_in lg (bi_pl c) (length (sols_of cs)) D BI_V /\
  D (LFut (bi_neg1 c)) /\ (forall m, In m (bi_rho c) -> D (LFut m)) /\ (forall m, In m (bi_alpha c) -> D (LFut m)) /\ forall m, In m (bi_omega c) -> D (LFut m).
Lemma bicg_run_init st pl0 k (D : loc -> Prop) : set_up lg cs st pl0 -> cov D -> iwp (bicg_run A lg red pl0 k) (fun c _ D' => bicg_inv c D') st D.
Proof.
  intros Hs HU. unfold bicg_run. apply iwp_bind. eapply iwp_conseq with (Q1 := fun c _ D' => bicg_inv c D').
  - unfold bicg_new, scalar_const. do 3 (apply iwp_bind; apply iwp_scalar_task; [intros ? []|]; intros ? ? ? ? ? ?; up). apply iwp_bind.
    apply iwp_allocate; [apply (@set_up_next _ lg cs st); [lia|exact Hs]|]. intros pl st2 D2' Hm Hw. up. destruct (working_ready Hw) as [R _].
    destruct (user_rows Hw HU) as [RS RR]. go R. apply iwp_ret. intros ? ?. up. repeat split; ins.
  - intros c st1 D1 Hc. induction k as [|k IH]; [apply iwp_ret; intros D2 Hm; destruct Hc as [Hw [K1 [K2 [K3 [K4 [K5 [K6 [K7 [K8 K9]]]]]]]]]; up; repeat split; assumption|].
    cbn [bicg_steps]. apply iwp_bind. eapply iwp_conseq; [exact IH|]. clear IH c st1 D1 Hc. intros c st1 D1 [Hw [K1 [K2 [K3 [K4 [K5 [K6 [K7 [K8 K9]]]]]]]]].
    destruct (working_ready Hw) as [R _]. destruct (user_rows Hw K1) as [RS RR]. unfold bicg_step.
    go R. apply iwp_ret. intros ? ?. up. repeat split; cbn [bi_pl bi_rho bi_alpha bi_omega bi_neg1]; ins.
Qed.

Definition gmres_inv (restart : nat) (c : gmres T) (D : loc -> Prop) : Prop :=
  working lg cs (restart + 1) (gm_pl c) /\ gm_restart c = restart /\ cov D /\ D (LFut (gm_neg1 c)) /\ forall i j, D (LFut (gm_h c i j)).
Definition h_in (D : loc -> Prop) (h : nat -> nat -> scalar) : Prop := forall i j, D (LFut (h i j)).
Lemma h_in_mono (D D' : loc -> Prop) h : (forall l, D l -> D' l) -> h_in D h -> h_in D' h.
Proof. intros H K i j. apply H, K. Qed.
Lemma set_h_in (D : loc -> Prop) h i j x : h_in D h -> D (LFut x) -> h_in D (set_h h i j x).
Proof. intros H Hx a b. unfold set_h. destruct (_ && _); auto. Qed.
Lemma gmres_run_init st pl0 restart k (D : loc -> Prop) : set_up lg cs st pl0 -> cov D -> iwp (gmres_run A lg red pl0 restart k) (fun c _ D' => gmres_inv restart c D') st D.
Proof.
  intros Hs HU. unfold gmres_run. apply iwp_bind. eapply iwp_conseq with (Q1 := fun c _ D' => gmres_inv restart c D').
  - unfold gmres_new, scalar_const. apply iwp_bind. apply iwp_scalar_task; [intros ? []|]. intros ? ? ? ? ? ?; up. apply iwp_bind.
    apply iwp_allocate; [apply (@set_up_next _ lg cs st); [lia|exact Hs]|]. intros pl st2 D2' Hm Hw. up. destruct (working_ready Hw) as [R _].
    go R. apply iwp_ret. intros ? ?. up. repeat split; try assumption; intros; assumption.
  - intros c st1 D1 Hc. induction k as [|k IH]; [apply iwp_ret; intros D2 Hm; destruct Hc as [Hw [K1 [K2 [K3 K4]]]]; repeat split; auto 14; eapply cov_mono; eassumption|].
    cbn [gmres_steps]. apply iwp_bind. eapply iwp_conseq; [exact IH|]. clear IH c st1 D1 Hc. intros c st1 D1 [Hw [K1 [K2 [K3 K4]]]].
    change (h_in D1 (gm_h c)) in K4. destruct (working_ready Hw) as [R _]. destruct (user_rows Hw K2) as [RS RR]. unfold gmres_step, gmres_start. rewrite K1.
    set (nn := length (sols_of cs)) in *. set (pl := gm_pl c) in *. apply iwp_bind. 
    assert (upD : forall D2 : loc -> Prop, (forall l, D1 l -> D2 l) -> cov D2 /\ D2 (LFut (gm_neg1 c)) /\ h_in D2 (gm_h c) /\ row_in lg pl nn D2 SOL).
    { intros D2 Hm. split; [eapply cov_mono; eassumption|]. split; [auto 14|]. split; [eapply h_in_mono; eassumption|eapply row_in_mono; eassumption]. }
    clear K2 K4 RS.
    apply iwp_bind. apply (iwp_matvec A Hlg R Hn); [rng|rng|apply (upD D1); auto 14|]. intros st2 D2 S2 B0.
    apply iwp_bind. apply (iwp_xpay A Hlg R Hn); [rng|rng|intros ? [<-|[]]; apply upD; assumption|assumption|eapply row_in_mono; eassumption|]. intros st3 D3 S3 B1.
    apply iwp_bind. apply (iwp_dot A Hlg red R Hn); [rng|rng|assumption|assumption|]. intros rr st4 D4 S4 F4.
    apply iwp_bind. apply iwp_scalar_task; [intros ? [<-|[]]; assumption|]. intros rs st5 D5 _ S5 F5.
    assert (B5 : row_in lg pl nn D5 (krylov_basis 0)) by (eapply row_in_mono; [exact S5|]; eapply row_in_mono; [exact S4|exact B1]).
    apply (iwp_scal A Hlg R Hn); [rng|assumption|assumption|]. intros st6 D6 S6 B6.
    assert (S : forall l, D1 l -> D6 l) by auto 14. clear S2 S3 S4 S5 S6 B0 B1 F4 F5 B5.
    apply iwp_bind. eapply iwp_conseq; [apply (@iwp_mfold T nat _ _ (fun done h _ D' => (forall l, D1 l -> D' l) /\ h_in D' h /\ forall j, j <= length done -> j < restart \/ j = 0 -> row_in lg pl nn D' (krylov_basis j)) (seq 0 restart))|].
    + intros done h st7 D7 D8 S7 [J1 [J2 J3]]. split; [auto 14|]. split; [eapply h_in_mono; eassumption|]. intros j Hj Hj'. eapply row_in_mono; [exact S7|auto 14].
    + intros done j rest h st7 D7 E [J1 [J2 J3]]. assert (Hjn : nth_error (seq 0 restart) (length done) = Some j) by (rewrite E, nth_error_app2 by lia; rewrite Nat.sub_diag; reflexivity).
      assert (Hj : In j (seq 0 restart)) by (rewrite E; apply in_or_app; right; left; reflexivity). apply in_seq in Hj.
      assert (Hjd : j = length done). { assert (Hd : length done < restart). { rewrite <- (seq_length restart 0), E, app_length. cbn. lia. } apply nth_error_nth with (d := 0) in Hjn. rewrite seq_nth in Hjn by exact Hd. lia. }
      unfold gmres_arnoldi. apply iwp_bind. apply (iwp_matvec A Hlg R Hn); [rng|rng|apply J3; lia|]. intros st8 D8 S8 B8. apply iwp_bind. unfold gmres_orthogonalise.
      eapply iwp_conseq; [apply (@iwp_mfold T nat _ _ (fun _ h' _ D' => (forall l, D7 l -> D' l) /\ h_in D' h' /\ row_in lg pl nn D' (krylov_basis (j + 1))) (seq 0 (j + 1)))|].
      * intros _ h2 st9 D9 D10 S9 [L1 [L2 L3]]. split; [auto 14|]. split; [eapply h_in_mono; eassumption|eapply row_in_mono; eassumption].
      * intros done' i rest' h' st9 D9 E' [L1 [L2 L3]]. assert (Hi : In i (seq 0 (j + 1))) by (rewrite E'; apply in_or_app; right; left; reflexivity). apply in_seq in Hi.
        assert (Bi : row_in lg pl nn D9 (krylov_basis i)) by (eapply row_in_mono; [exact L1|]; apply J3; lia).
        apply iwp_bind. apply (iwp_dot A Hlg red R Hn); [rng|rng|assumption|assumption|]. intros d st10 D10 S10 F10.
        assert (H10 : h_in D10 (set_h h' i j d)) by (apply set_h_in; [eapply h_in_mono; eassumption|assumption]).
        apply iwp_bind. apply iwp_scalar_task; [intros ? [<-|[]]; apply H10|]. intros ng st11 D11 _ S11 F11.
        apply iwp_bind. apply (iwp_axpy A Hlg R Hn); [rng|rng|intros ? [<-|[]]; assumption|eapply row_in_mono; [|exact L3]; auto 14|eapply row_in_mono; [|exact Bi]; auto 14|]. intros st12 D12 S12 B12.
        apply iwp_ret. intros D13 S13. split; [auto 14|]. split; [eapply h_in_mono; [|exact H10]; auto 14|eapply row_in_mono; [|exact B12]; auto 14].
      * split; [exact S8|]. split; [eapply h_in_mono; eassumption|exact B8].
      * cbn beta. intros h2 st9 D9 [L1 [L2 L3]]. apply iwp_bind. apply (iwp_dot A Hlg red R Hn); [rng|rng|assumption|assumption|]. intros d st10 D10 S10 F10.
        apply iwp_bind. apply iwp_scalar_task; [intros ? [<-|[]]; assumption|]. intros sq st11 D11 _ S11 F11.
        assert (H11 : h_in D11 (set_h h2 (j + 1) j sq)) by (apply set_h_in; [eapply h_in_mono; [|exact L2]; auto 14|assumption]).
        assert (S711 : forall l, D7 l -> D11 l) by auto 14.
        destruct (j + 1 <? restart) eqn:Er.
        -- apply iwp_bind. apply iwp_scalar_task; [intros ? [<-|[]]; auto 14|]. intros r st12 D12 _ S12 F12. apply iwp_bind.
           apply (iwp_scal A Hlg R Hn); [rng|assumption|eapply row_in_mono; [|exact L3]; auto 14|]. intros st13 D13 S13 B13. apply iwp_ret. intros D14 S14.
           split; [auto 14|]. split; [eapply h_in_mono; [|exact H11]; auto 14|]. intros i Hi Hi'. rewrite app_length in Hi. cbn in Hi.
           destruct (Nat.eq_dec i (j + 1)) as [->|Hne]; [eapply row_in_mono; [|exact B13]; auto 14|]. eapply row_in_mono; [|apply J3; lia]. auto 14.
        -- apply Nat.ltb_ge in Er. apply iwp_ret. intros D14 S14. split; [auto 14|]. split; [eapply h_in_mono; [|exact H11]; auto 14|]. intros i Hi Hi'. rewrite app_length in Hi. cbn in Hi.
           eapply row_in_mono; [|apply J3; lia]. auto 14.
    + split; [auto 14|]. split; [apply upD; auto 14|]. intros j Hj _. assert (j = 0) by (cbn in Hj; lia). subst j. exact B6.
    + cbn beta. intros h st7 D7 [J1 [J2 J3]]. rewrite seq_length in J3. apply iwp_bind. apply iwp_scalar_task.
      { intros x Hx. unfold all_h in Hx. apply in_flat_map in Hx. destruct Hx as [i [_ Hx]]. apply in_map_iff in Hx. destruct Hx as [j [<- _]]. apply J2. }
      intros coeff st8 D8 _ S8 F8. apply iwp_bind.
      eapply iwp_conseq; [apply (@iwp_mfor T nat _ (fun _ _ D' => forall l, D8 l -> D' l) (seq 0 restart))|].
      * auto 14.
      * intros done j rest st9 D9 E S9. assert (Hj : In j (seq 0 restart)) by (rewrite E; apply in_or_app; right; left; reflexivity). apply in_seq in Hj.
        apply (iwp_axpy A Hlg R Hn); [rng|rng|intros ? [<-|[]]; auto 14|apply upD; auto 14| |].
        -- eapply row_in_mono; [|apply (J3 j); lia]. auto 14.
        -- intros st10 D10 S10 B10. auto 14.
      * auto 14.
      * cbn beta. intros [] st9 D9 S9. apply iwp_ret. intros D10 S10. assert (S110 : forall l, D1 l -> D10 l) by auto 14. destruct (upD D10 S110) as [V1 [V2 [V3 V4]]].
        repeat split; [exact Hw|exact V1|exact V2|]. intros i j. apply S10, S9, S8, J2.
Qed.
End Any.

(** ** C72 *)
Lemma launches_well_behaved T X (m : M T X) (given : loc -> Prop) Q Q' st (s : store loc T) x lns st' :
  wp m Q st s -> iwp m Q' st given -> m st = Ok (x, lns, st') -> well_behaved given lns.
Proof.
  intros [x0 [lns0 [st0 [E [Hg _]]]]] Hi H. rewrite E in H. injection H as <- <- <-. apply good_well_behaved; [exact Hg|]. apply (Hi _ _ _ E).
Qed.
Theorem C72_cg : forall (T : Type) (A : arith T) (lg : legion) (red : nat -> list T -> T) (cs : list (setup_call T)) st pl0 k c lns st',
  legion_ok lg -> set_up lg cs st pl0 -> 0 < length (sols_of cs) -> cg_run A lg red pl0 k st = Ok (c, lns, st') -> well_behaved (user_data lg cs) lns.
Proof.
  intros T A lg red cs st pl0 k c lns st' Hlg Hs Hn E. eapply launches_well_behaved; [apply (@cg_run_good T A lg red cs Hlg Hn st pl0 (fun _ => a0 A) k Hs)| |exact E].
  eapply cg_run_init; [exact Hlg|exact Hn|exact Hs|intros l Hl; exact Hl].
Qed.
Theorem C72_bicgstab : forall (T : Type) (A : arith T) (lg : legion) (red : nat -> list T -> T) (cs : list (setup_call T)) st pl0 k c lns st',
  legion_ok lg -> set_up lg cs st pl0 -> 0 < length (sols_of cs) -> bicg_run A lg red pl0 k st = Ok (c, lns, st') -> well_behaved (user_data lg cs) lns.
Proof.
  intros T A lg red cs st pl0 k c lns st' Hlg Hs Hn E. eapply launches_well_behaved; [apply (@bicg_run_good T A lg red cs Hlg Hn st pl0 (fun _ => a0 A) k Hs)| |exact E].
  eapply bicg_run_init; [exact Hlg|exact Hn|exact Hs|intros l Hl; exact Hl].
Qed.
Theorem C72_gmres : forall (T : Type) (A : arith T) (lg : legion) (red : nat -> list T -> T) (cs : list (setup_call T)) st pl0 restart k c lns st',
  legion_ok lg -> set_up lg cs st pl0 -> 0 < length (sols_of cs) -> gmres_run A lg red pl0 restart k st = Ok (c, lns, st') -> well_behaved (user_data lg cs) lns.
Proof.
  intros T A lg red cs st pl0 restart k c lns st' Hlg Hs Hn E. eapply launches_well_behaved; [apply (@gmres_run_good T A lg red cs Hlg Hn st pl0 (fun _ => a0 A) restart k Hs)| |exact E].
  eapply gmres_run_init; [exact Hlg|exact Hn|exact Hs|intros l Hl; exact Hl].
Qed.

(** programs of planner calls *)
Theorem C72_planner_calls : forall (T : Type) (A : arith T) (lg : legion) red (cs : list (setup_call T)) (nw : nat) (pl : planner T) (xs : list (stmt T)) st lns st',
  legion_ok lg -> working lg cs nw pl -> 0 < length (sols_of cs) -> (forall x, In x xs -> stmt_ok (2 + nw) x) ->
  run_stmts A lg red pl xs st = Ok (tt, lns, st') -> well_behaved (fun _ => True) lns.
Proof.
  intros T A lg red cs nw pl xs st lns st' Hlg Hw Hn Hok E. destruct (working_ready Hw) as [R _].
  apply good_well_behaved.
  - revert st lns st' E. induction xs as [|x xs IH]; intros st lns st' E; [injection E as <- <-; constructor|]. cbn [run_stmts] in E. unfold bind in E.
    destruct (@stmt_good T A lg red pl cs nw x Hlg Hw Hn (Hok x (or_introl eq_refl)) st) as [[] [l1 [st1 [E1 G1]]]]. rewrite E1 in E. cbn [obind] in E.
    destruct (run_stmts A lg red pl xs st1) as [[[[] l2] st2]| | |] eqn:E2; cbn [obind] in E; try discriminate. injection E as <- <-.
    apply Forall_app. split; [exact G1|]. eapply IH; [intros y Hy; apply Hok; right; exact Hy|exact E2].
  - assert (K : iwp (run_stmts A lg red pl xs) (fun _ _ _ => True) st (fun _ => True)); [|apply (K _ _ _ E)].
    clear E. revert st. induction xs as [|x xs IH]; intros st; [apply iwp_ret; intros ? ?; exact I|]. cbn [run_stmts]. apply iwp_bind.
    assert (Q : iwp (run_stmt A lg red pl x) (fun _ _ D' => forall l, D' l) st (fun _ => True)).
    { pose proof (Hok x (or_introl eq_refl)) as O. assert (RA : forall v, row_in lg pl (length (sols_of cs)) (fun _ => True) v) by (intros v i Hi p Hp; exact I).
      destruct x as [op|d v|v w|args f]; cbn [run_stmt stmt_ok] in *.
      - destruct op as [d|d y|d f|d fs y|d fs y]; cbn [op_ok run_op] in *.
        + apply (iwp_zero_fill A Hlg R Hn); [tauto|auto].
        + apply (iwp_copy A Hlg R Hn); try tauto; auto.
        + apply (iwp_scal A Hlg R Hn); try tauto; auto.
        + apply (iwp_axpy A Hlg R Hn); try tauto; auto.
        + apply (iwp_xpay A Hlg R Hn); try tauto; auto.
      - apply (iwp_matvec A Hlg R Hn); try tauto; auto.
      - apply iwp_bind. apply (iwp_dot A Hlg red R Hn); try tauto; auto. intros m st2 D2 H2 _. apply iwp_ret. intros D3 H3 l. auto.
      - apply iwp_bind. apply iwp_scalar_task; auto. intros m st2 D2 _ H2 _. apply iwp_ret. intros D3 H3 l. auto. }
    eapply iwp_conseq; [exact Q|]. cbn beta. intros [] st2 D2 H2 x2 lns2 st3 E3.
    destruct (IH (fun y Hy => Hok y (or_intror Hy)) st2 x2 lns2 st3 E3) as [F G]. split; [|auto]. eapply fed_mono; [|exact F]. auto.
Qed.

(** ** C74 *)
(** Two runs of the same program on memories that agree on [given]: same result object; every location of [given], every scalar the result object keeps and
    every location either run changes ends up with the same contents in both. *)
Definition memory_independent {T X} (given : loc -> Prop) (scalars : X -> list nat) (m : M T X) (st : ist) : Prop :=
  forall s1 s2 : store loc T, (forall l, given l -> s1 l = s2 l) ->
  forall x1 st1 s1' x2 st2 s2', ends m st s1 x1 st1 s1' -> ends m st s2 x2 st2 s2' ->
    x1 = x2 /\ (forall l, given l -> s1' l = s2' l) /\ (forall n, In n (scalars x1) -> s1' (LFut n) = s2' (LFut n)) /\
    (forall l, s1' l <> s1 l \/ s2' l <> s2 l -> s1' l = s2' l).
Lemma written_dec T (lns : list (launch T)) l : written lns l \/ ~ written lns l.
Proof.
  assert (E : written lns l <-> In l (flat_map (fun ln => map (@tgt loc T) (concat (ln_tasks ln))) lns)).
  { rewrite in_flat_map. split.
    - intros [ln [Hin [t [st [Ht [Hs <-]]]]]]. exists ln. split; [exact Hin|]. apply in_map. apply in_concat. eauto.
    - intros [ln [Hin Hl]]. apply in_map_iff in Hl. destruct Hl as [st [<- Hs]]. apply in_concat in Hs. destruct Hs as [t [Ht Hs]]. exists ln. split; [exact Hin|]. exists t, st. auto. }
  rewrite E. destruct (in_dec loc_dec l (flat_map (fun ln => map (@tgt loc T) (concat (ln_tasks ln))) lns)); auto.
Qed.
Lemma agree T X (m : M T X) (given : loc -> Prop) (scalars : X -> list nat) Q Q' st : (forall s, wp m Q st s) -> iwp m Q' st given ->
  (forall x st' D, Q' x st' D -> forall n, In n (scalars x) -> D (LFut n)) -> memory_independent given scalars m st.
Proof.
  intros W Hi HQ s1 s2 Ha x1 st1 s1' x2 st2 s2' [l1 [E1 L1]] [l2 [E2 L2]]. destruct (W s1) as [x0 [lns [st0 [E [Hg _]]]]].
  rewrite E in E1, E2. injection E1 as <- <- <-. injection E2 as <- <- <-. split; [reflexivity|].
  destruct (Hi _ _ _ E) as [F K]. assert (Hag : forall l, given l \/ written lns l -> s1' l = s2' l).
  { intros l Hl. rewrite (launches_end_effect Hg L1), (launches_end_effect Hg L2). eapply effect_agree; eassumption. }
  split; [auto|]. split; [intros n Hn; apply Hag; apply (HQ _ _ _ (K (fun l => given l \/ written lns l) (fun l Hl => Hl)) n Hn)|].
  intros l Hl. destruct (written_dec lns l) as [Hw|Hw]; [auto|]. exfalso.
  destruct Hl as [Hl|Hl]; apply Hl; [rewrite (launches_end_effect Hg L1)|rewrite (launches_end_effect Hg L2)]; apply effect_frame; exact Hw.
Qed.
Theorem C74_cg : forall (T : Type) (A : arith T) (lg : legion) (red : nat -> list T -> T) (cs : list (setup_call T)) st pl0 k,
  legion_ok lg -> set_up lg cs st pl0 -> 0 < length (sols_of cs) ->
  memory_independent (user_data lg cs) (@cg_norms T) (cg_run A lg red pl0 k) st.
Proof.
  intros T A lg red cs st pl0 k Hlg Hs Hn. eapply agree; [intros s; apply (@cg_run_good T A lg red cs Hlg Hn st pl0 s k Hs)|eapply cg_run_init; [exact Hlg|exact Hn|exact Hs|intros l Hl; exact Hl]|].
  cbn beta. intros c st' D [_ [_ [_ [_ [_ H]]]]]. exact H.
Qed.
Theorem C74_bicgstab : forall (T : Type) (A : arith T) (lg : legion) (red : nat -> list T -> T) (cs : list (setup_call T)) st pl0 k,
  legion_ok lg -> set_up lg cs st pl0 -> 0 < length (sols_of cs) ->
  memory_independent (user_data lg cs) (fun c => bi_rho c ++ bi_alpha c ++ bi_omega c) (bicg_run A lg red pl0 k) st.
Proof.
  intros T A lg red cs st pl0 k Hlg Hs Hn. eapply agree; [intros s; apply (@bicg_run_good T A lg red cs Hlg Hn st pl0 s k Hs)|eapply bicg_run_init; [exact Hlg|exact Hn|exact Hs|intros l Hl; exact Hl]|].
  cbn beta. intros c st' D [_ [_ [_ [_ [_ [_ [_ [H1 [H2 H3]]]]]]]]] n Hin. apply in_app_or in Hin. destruct Hin as [Hin|Hin]; [auto|]. apply in_app_or in Hin. destruct Hin; auto.
Qed.
Theorem C74_gmres : forall (T : Type) (A : arith T) (lg : legion) (red : nat -> list T -> T) (cs : list (setup_call T)) st pl0 restart k,
  legion_ok lg -> set_up lg cs st pl0 -> 0 < length (sols_of cs) ->
  memory_independent (user_data lg cs) (fun c => all_h restart (gm_h c)) (gmres_run A lg red pl0 restart k) st.
Proof.
  intros T A lg red cs st pl0 restart k Hlg Hs Hn. eapply agree; [intros s; apply (@gmres_run_good T A lg red cs Hlg Hn st pl0 s restart k Hs)|eapply gmres_run_init; [exact Hlg|exact Hn|exact Hs|intros l Hl; exact Hl]|].
  cbn beta. intros c st' D [_ [_ [_ [_ H]]]] n Hin. unfold all_h in Hin. apply in_flat_map in Hin. destruct Hin as [i [_ Hin]]. apply in_map_iff in Hin. destruct Hin as [j [<- _]]. apply H.
Qed.

(** ** Examples *)
(** The two-component system with three matrices of PropsPlanner meets the hypotheses.   The criterion is not vacuous: a program
    that copies a workspace vector into the solution right after allocating it is refused, because nothing has written the workspace yet. *)
Definition f64_calls : list (setup_call f64) :=
  [AddSol (v2 3 10); AddRhs (v2 3 20); AddRhs (v2 3 21); AddSol (v2 3 11)].
Definition copy_workspace (pl0 : planner f64) : M f64 unit := let* pl := allocate_workspace lg2 pl0 1 in pl_copy binary64 lg2 pl SOL 2.
Example C72_C74_example :
  (exists pl0, legion_ok lg2 /\ set_up lg2 ex_calls ex_st pl0 /\ 0 < length (sols_of ex_calls)) /\
  exists pl0 lns st', do_calls lg2 (new_planner f64) f64_calls = Ok pl0 /\ copy_workspace pl0 ex_st = Ok (tt, lns, st') /\
    ~ well_behaved (user_data lg2 f64_calls) lns.
Proof.
  split.
  - destruct C16_C18_example as [_ [_ [pl0 [_ [H _]]]]]. exists pl0. split; [exact lg2_ok|]. split; [exact H|cbn; lia].
  - eexists. eexists. eexists. split; [vm_compute; reflexivity|]. split; [vm_compute; reflexivity|].
    intros [_ _ _ H]. destruct (H 0 _ (LVec 100 0 [0%Z]) eq_refl) as [[v [p [Hv [_ E]]]]|[j [_ [Hj _]]]]; [| |lia].
    + eexists. eexists. split; [left; reflexivity|]. split; [left; reflexivity|]. left. reflexivity.
    + injection E as E _ _. cbn in Hv. intuition subst; discriminate.
Qed.
