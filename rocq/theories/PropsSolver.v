(** PropsSolver: property C54.  Whole solver runs, in whatever arithmetic the entry type has: no call is rejected, and
    the result does not depend on the order in which the runtime executes the tasks. *)
From Verif Require Import Base Index Outcome Sched Async Arith Launch Vector PartitionSpec VectorFacts LaunchFacts Matrix MatrixSpec MatrixFacts
  MatvecFacts Builder BuilderFacts Exec Planner PlannerFacts PlannerSetup Solvers PropsPlanner.
Set Implicit Arguments.

Lemma set_up_next T lg (cs : list (setup_call T)) st st' pl0 : next_region st <= next_region st' -> set_up lg cs st pl0 -> set_up lg cs st' pl0.
Proof.
  intros E [[W1 W2 W3 W4] H]. split; [|exact H]. constructor; auto. intros v Hv. destruct (W1 v Hv). split; [assumption|lia].
Qed.
Lemma wp_allocate T lg (cs : list (setup_call T)) st pl0 nw (Q : planner T -> ist -> store loc T -> Prop) s : set_up lg cs st pl0 ->
  (forall pl st', working lg cs nw pl -> pl_sol pl = sols_of cs -> pl_rhs pl = rhss_of cs -> next_fut st' = next_fut st -> Q pl st' s) ->
  wp (allocate_workspace lg pl0 nw) Q st s.
Proof.
  intros Hs HQ. destruct (allocate_ready nw Hs) as [E _]. eexists. exists []. eexists. split; [exact E|]. split; [constructor|].
  assert (Hw : working lg cs nw (with_workspace lg pl0 (next_region st) nw)) by (exists st, pl0; eexists; eexists; split; [exact Hs|exact E]).
  destruct (working_ready Hw) as [_ [_ [C3 C4]]]. rewrite effect_nil. apply HQ; auto.
Qed.

(** the user programs: construct the solver on planner [pl0], then call step() [k] times *)
Definition cg_run {T} (A : arith T) (lg : legion) (red : nat -> list T -> T) (pl0 : planner T) (k : nat) : M T (cg T) :=
  let* c := cg_new A lg red pl0 in cg_steps A lg red k c.
Definition bicg_run {T} (A : arith T) (lg : legion) (red : nat -> list T -> T) (pl0 : planner T) (k : nat) : M T (bicg T) :=
  let* c := bicg_new A lg pl0 in bicg_steps A lg red k c.
Fixpoint gmres_steps {T} (A : arith T) (lg : legion) (red : nat -> list T -> T) (k : nat) (c : gmres T) : M T (gmres T) :=
  match k with 0 => ret c | S k' => let* c' := gmres_steps A lg red k' c in gmres_step A lg red c' end.
Definition gmres_run {T} (A : arith T) (lg : legion) (red : nat -> list T -> T) (pl0 : planner T) (restart k : nat) : M T (gmres T) :=
  let* c := gmres_new A lg pl0 restart in gmres_steps A lg red k c.

Lemma wp_back_any T X (l : list X) (Q : X -> ist -> store loc T -> Prop) st s : l <> [] -> (forall x, Q x st s) -> wp (back T l) Q st s.
Proof.
  intros Hl HQ. unfold back. destruct (rev l) as [|x r] eqn:E; [apply (f_equal (@rev X)) in E; rewrite rev_involutive in E; contradiction|].
  eapply wp_lift; [reflexivity|apply HQ].
Qed.

Section Any.
Variable T : Type.
Variable A : arith T.
Variable lg : legion.
Variable red : nat -> list T -> T.
Variable cs : list (setup_call T).
Hypothesis Hlg : legion_ok lg.
Hypothesis Hn : 0 < length (sols_of cs).

Ltac rng := unfold SOL, RHS, CG_P, CG_Q, CG_R, BI_P, BI_R, BI_RT, BI_U, BI_V, krylov_basis in *; cbn [length]; lia.
Ltac op R :=
  match goal with
  | |- wp (bind _ _) _ _ _ => apply wp_bind
  | |- wp (pl_zero_fill _ _ _ _) _ _ _ => apply (wp_zero_fill A Hlg R); [rng|intros ? _]
  | |- wp (pl_copy _ _ _ _ _) _ _ _ => apply (wp_copy A Hlg R); [rng|rng|rng|intros ? _]
  | |- wp (pl_scal _ _ _ _ _) _ _ _ => apply (wp_scal A Hlg R); [rng|intros ? _]
  | |- wp (pl_axpy _ _ _ _ _ _) _ _ _ => apply (wp_axpy A Hlg R); [rng|rng|rng|rng|intros ? _]
  | |- wp (pl_xpay _ _ _ _ _ _) _ _ _ => apply (wp_xpay A Hlg R); [rng|rng|rng|rng|intros ? _]
  | |- wp (pl_matvec _ _ _ _ _) _ _ _ => apply (wp_matvec Hlg R); [rng|rng|rng|intros ? _]
  | |- wp (pl_dot _ _ _ _ _ _) _ _ _ => apply (wp_dot R); [exact Hn|rng|rng|intros ? ? ? _ _ _ _ _]
  | |- wp (back _ _) _ _ _ => apply wp_back_any; [try assumption; intros E_; apply app_eq_nil in E_; destruct E_; discriminate|intros ?]
  | |- wp (scalar_task _ _) _ _ _ => apply wp_scalar_task; intros ? _ _
  | |- wp (ret _) _ _ _ => apply wp_ret
  end.
Ltac ops R := unfold scalar_const, scalar_div, scalar_mul, scalar_neg, scalar_sqrt, scalar_rsqrt; repeat op R.

Lemma cg_run_good st pl0 s k : set_up lg cs st pl0 ->
  wp (cg_run A lg red pl0 k) (fun c _ _ => working lg cs 3 (cg_pl c) /\ cg_norms c <> []) st s.
Proof.
  intros Hs. unfold cg_run. apply wp_bind. eapply wp_conseq with (Q1 := fun c _ _ => working lg cs 3 (cg_pl c) /\ cg_norms c <> []).
  - unfold cg_new. apply wp_bind. apply wp_scalar_task. intros s1 _ _. apply wp_bind.
    apply (@wp_allocate _ lg cs (next st) pl0 3 _ s1); [apply (@set_up_next _ lg cs st); [cbn; lia|exact Hs]|]. intros pl st1 Hw _ _ _.
    destruct (working_ready Hw) as [R _]. ops R. split; [exact Hw|discriminate].
  - intros c st1 s1 [Hw Hne]. induction k as [|k IH]; [apply wp_ret; auto|]. cbn [cg_steps]. apply wp_bind. eapply wp_conseq; [exact IH|].
    clear IH c st1 s1 Hw Hne. intros c st1 s1 [Hw Hne]. destruct (working_ready Hw) as [R _]. unfold cg_step. ops R.
    split; [exact Hw|]. cbn [cg_norms]. intros E. apply app_eq_nil in E. destruct E; discriminate.
Qed.
Lemma bicg_run_good st pl0 s k : set_up lg cs st pl0 ->
  wp (bicg_run A lg red pl0 k) (fun c _ _ => working lg cs 5 (bi_pl c) /\ bi_rho c <> [] /\ bi_alpha c <> [] /\ bi_omega c <> []) st s.
Proof.
  intros Hs. unfold bicg_run. apply wp_bind. eapply wp_conseq with (Q1 := fun c _ _ => working lg cs 5 (bi_pl c) /\ bi_rho c <> [] /\ bi_alpha c <> [] /\ bi_omega c <> []).
  - unfold bicg_new. do 3 (apply wp_bind; apply wp_scalar_task; intros ? _ _). apply wp_bind.
    apply (@wp_allocate _ lg cs _ pl0 5); [apply (@set_up_next _ lg cs st); [cbn; lia|exact Hs]|]. intros pl st1 Hw _ _ _.
    destruct (working_ready Hw) as [R _]. ops R. split; [exact Hw|]. repeat split; discriminate.
  - intros c st1 s1 [Hw [N1 [N2 N3]]]. induction k as [|k IH]; [apply wp_ret; auto|]. cbn [bicg_steps]. apply wp_bind. eapply wp_conseq; [exact IH|].
    clear IH c st1 s1 Hw N1 N2 N3. intros c st1 s1 [Hw [N1 [N2 N3]]]. destruct (working_ready Hw) as [R _]. unfold bicg_step. ops R.
    split; [exact Hw|]. cbn [bi_rho bi_alpha bi_omega]. repeat split; intros E; apply app_eq_nil in E; destruct E; discriminate.
Qed.
Lemma gmres_run_good st pl0 s restart k : set_up lg cs st pl0 ->
  wp (gmres_run A lg red pl0 restart k) (fun c _ _ => working lg cs (restart + 1) (gm_pl c) /\ gm_restart c = restart) st s.
Proof.
  intros Hs. unfold gmres_run. apply wp_bind. eapply wp_conseq with (Q1 := fun c _ _ => working lg cs (restart + 1) (gm_pl c) /\ gm_restart c = restart).
  - unfold gmres_new. apply wp_bind. apply wp_scalar_task. intros s1 _ _. apply wp_bind.
    apply (@wp_allocate _ lg cs _ pl0 (restart + 1)); [apply (@set_up_next _ lg cs st); [cbn; lia|exact Hs]|]. intros pl st1 Hw _ _ _.
    destruct (working_ready Hw) as [R _]. ops R. split; [exact Hw|reflexivity].
  - intros c st1 s1 [Hw Hr]. induction k as [|k IH]; [apply wp_ret; auto|]. cbn [gmres_steps]. apply wp_bind. eapply wp_conseq; [exact IH|].
    clear IH c st1 s1 Hw Hr. intros c st1 s1 [Hw Hr]. destruct (working_ready Hw) as [R _]. unfold gmres_step, gmres_start. rewrite Hr. ops R.
    eapply wp_conseq; [apply (@wp_mfold T nat _ _ (fun _ _ _ _ => True) (seq 0 restart))|].
    + intros done j rest h st2 s2 E _. assert (Hj : In j (seq 0 restart)) by (rewrite E; apply in_or_app; right; left; reflexivity). apply in_seq in Hj.
      unfold gmres_arnoldi. apply wp_bind. op R. apply wp_bind. unfold gmres_orthogonalise.
      eapply wp_conseq; [apply (@wp_mfold T nat _ _ (fun _ _ _ _ => True) (seq 0 (j + 1)))|].
      * intros done' i rest' h' st3 s3 E' _. assert (Hi : In i (seq 0 (j + 1))) by (rewrite E'; apply in_or_app; right; left; reflexivity). apply in_seq in Hi.
        ops R. exact I.
      * exact I.
      * intros h2 st3 s3 _. ops R. destruct (j + 1 <? restart); ops R; exact I.
    + exact I.
    + intros h st2 s2 _. op R. op R. op R. eapply wp_conseq; [apply (@wp_mfor T nat _ (fun _ _ _ => True) (seq 0 restart))|].
      * intros done j rest st3 s3 E _. assert (Hj : In j (seq 0 restart)) by (rewrite E; apply in_or_app; right; left; reflexivity). apply in_seq in Hj.
        ops R. exact I.
      * exact I.
      * intros _ st3 s3 _. apply wp_ret. split; [exact Hw|reflexivity].
Qed.
End Any.

(** A program is accepted, some execution of it finishes, and all executions end with the same result, the same vectors and the same scalars. *)
Definition runs_deterministically {T X} (m : M T X) (st : ist) (s : store loc T) : Prop :=
  accepted m st /\ (exists x st' s', ends m st s x st' s') /\
  forall x1 st1 s1 x2 st2 s2, ends m st s x1 st1 s1 -> ends m st s x2 st2 s2 -> x1 = x2 /\ forall l, s1 l = s2 l.
Lemma wp_runs_deterministically T X (m : M T X) Q st s : wp m Q st s -> runs_deterministically m st s.
Proof.
  intros W. split; [eapply wp_accepted; exact W|]. split; [apply accepted_ends; eapply wp_accepted; exact W|].
  intros x1 st1 s1 x2 st2 s2 E1 E2. destruct (wp_deterministic W E1 E2) as [H1 [_ H2]]. auto.
Qed.
(** ** C54 *)
Theorem C54_cg_runs : forall (T : Type) (A : arith T) (lg : legion) (red : nat -> list T -> T) (cs : list (setup_call T)) st pl0 s k,
  legion_ok lg -> set_up lg cs st pl0 -> 0 < length (sols_of cs) -> runs_deterministically (cg_run A lg red pl0 k) st s.
Proof. intros. eapply wp_runs_deterministically. apply (@cg_run_good T A lg red cs); assumption. Qed.
Theorem C54_bicgstab_runs : forall (T : Type) (A : arith T) (lg : legion) (red : nat -> list T -> T) (cs : list (setup_call T)) st pl0 s k,
  legion_ok lg -> set_up lg cs st pl0 -> 0 < length (sols_of cs) -> runs_deterministically (bicg_run A lg red pl0 k) st s.
Proof. intros. eapply wp_runs_deterministically. apply (@bicg_run_good T A lg red cs); assumption. Qed.
Theorem C54_gmres_runs : forall (T : Type) (A : arith T) (lg : legion) (red : nat -> list T -> T) (cs : list (setup_call T)) st pl0 s restart k,
  legion_ok lg -> set_up lg cs st pl0 -> 0 < length (sols_of cs) -> runs_deterministically (gmres_run A lg red pl0 restart k) st s.
Proof. intros. eapply wp_runs_deterministically. apply (@gmres_run_good T A lg red cs); assumption. Qed.
