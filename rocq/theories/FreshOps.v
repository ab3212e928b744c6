(** FreshOps: the vector, planner and solver operations give every launch its own result future. *)
From Verif Require Import Base Index Outcome Sched Async Arith Launch Vector VectorFacts LaunchFacts Matrix Builder BuilderFacts Exec ScalarProg FreshFacts Planner Solvers PropsVector PropsSolver.
Set Implicit Arguments.

Section FreshOps.
Variable T : Type.
Variable A : arith T.
Variable lg : legion.
Variable red : nat -> list T -> T.
Lemma submit_none (ln ln' : launch T) : submit ln = Ok ln' -> ln_result ln = None -> ln_result ln' = None.
Proof. intros H E. apply submit_ok in H. destruct H as [-> _]. exact E. Qed.
Lemma call_no_result y op ln : call A lg y op = Ok ln -> ln_result ln = None.
Proof.
  destruct op; cbn [call]; unfold constant_fill, constant_fill_future, zero_fill, copy, scal, axpy, xpay, constant_fill; intros H;
    repeat match goal with H : oassert _ _ = Ok _ |- _ => apply oassert_ok in H; destruct H as [_ H] end; (eapply submit_none; [exact H|reflexivity]).
Qed.
Lemma fr_call y op : fresh_results (issue (call A lg y op)).
Proof. apply fr_issue. intros ln. apply call_no_result. Qed.
Lemma fr_fill y c : fresh_results (issue (@constant_fill T lg y c)).
Proof. apply (@fr_call y (Fill c)). Qed.
Lemma fr_zero_fill y : fresh_results (issue (zero_fill A lg y)).
Proof. apply (@fr_call y ZeroFill). Qed.
Lemma fr_copy y x : fresh_results (issue (copy A lg y x)).
Proof. apply (@fr_call y (Copy x)). Qed.
Lemma fr_scal y fs : fresh_results (issue (scal A lg y fs)).
Proof. apply (@fr_call y (Scal fs)). Qed.
Lemma fr_axpy y fs x : fresh_results (issue (axpy A lg y fs x)).
Proof. apply (@fr_call y (Axpy fs x)). Qed.
Lemma fr_xpay y fs x : fresh_results (issue (xpay A lg y fs x)).
Proof. apply (@fr_call y (Xpay fs x)). Qed.
Lemma fr_matvec m y x kps gs : fresh_results (issue (matvec A lg m y x kps gs)).
Proof.
  apply fr_issue. intros ln H. unfold matvec in H. destruct (_ && _); [|discriminate]. destruct (matvec_tasks A lg m y x kps gs); cbn [obind] in H; try discriminate.
  eapply submit_none; [exact H|reflexivity].
Qed.
Lemma fr_fresh_region : fresh_results (@fresh_region T).
Proof. intros st x lns st' H. injection H as <- <- <-. cbn. split; [lia|]. split; [constructor|intros n []]. Qed.
Lemma fr_vector_dot v w : fresh_results (vector_dot A lg red v w).
Proof.
  intros st x lns st' H. unfold vector_dot, bind, fresh_fut, issue_all in H. cbn [obind] in H. unfold dot in H.
  destruct (same_layout v w); cbn [oassert obind] in H; [|discriminate]. unfold submit in H. destruct (interfering _); cbn [obind] in H; [discriminate|].
  cbn [obind ret app] in H. injection H as <- <- <-. cbn. split; [lia|]. split; [constructor; [intros []|constructor]|]. intros n [<-|[]]. lia.
Qed.
Lemma fr_back X (l : list X) : fresh_results (back T l).
Proof. apply fr_lift. Qed.
Lemma fr_workspace_rows spaces : forall parts k, fresh_results (workspace_rows T lg spaces parts k).
Proof.
  induction spaces as [|a spaces IH]; intros [|q parts] k; cbn [workspace_rows]; try apply fr_ret.
  apply fr_bind; [apply fr_fresh_region|]. intros r. apply fr_bind; [apply fr_lift|]. intros vs. apply fr_bind; [apply IH|]. intros rest. apply fr_ret.
Qed.
Lemma fr_allocate_workspace pl k : fresh_results (allocate_workspace (T := T) lg pl k).
Proof.
  unfold allocate_workspace. apply fr_bind; [apply fr_massert|]. intros _. apply fr_bind; [apply fr_massert|]. intros _. apply fr_bind; [apply fr_workspace_rows|]. intros r. apply fr_ret.
Qed.
Ltac fr := repeat first [apply fr_ret | apply fr_lift | apply fr_massert | apply fr_back | apply fr_scalar_task | apply fr_call | apply fr_fill | apply fr_zero_fill | apply fr_copy
  | apply fr_scal | apply fr_axpy | apply fr_xpay | apply fr_matvec | apply fr_fresh_region | apply fr_vector_dot | apply fr_allocate_workspace | apply fr_mfor | apply fr_mfold | apply fr_bind | intros ?].
Lemma fr_pl_zero_fill pl i : fresh_results (pl_zero_fill A lg pl i). Proof. unfold pl_zero_fill. fr. Qed.
Lemma fr_pl_copy pl i j : fresh_results (pl_copy A lg pl i j). Proof. unfold pl_copy, for_spaces. fr. Qed.
Lemma fr_pl_scal pl i f : fresh_results (pl_scal A lg pl i f). Proof. unfold pl_scal, for_spaces. fr. Qed.
Lemma fr_pl_axpy pl i fs j : fresh_results (pl_axpy A lg pl i fs j). Proof. unfold pl_axpy, for_spaces. fr. Qed.
Lemma fr_pl_xpay pl i fs j : fresh_results (pl_xpay A lg pl i fs j). Proof. unfold pl_xpay, for_spaces. fr. Qed.
Lemma fr_pl_dot pl i j : fresh_results (pl_dot A lg red pl i j). Proof. unfold pl_dot, component_dot, scalar_add. fr. Qed.
Lemma fr_pl_matvec pl i j : fresh_results (pl_matvec A lg pl i j).
Proof. unfold pl_matvec. apply fr_bind; [apply fr_pl_zero_fill|]. intros _. fr. Qed.
Ltac frp := repeat first [apply fr_pl_zero_fill | apply fr_pl_copy | apply fr_pl_scal | apply fr_pl_axpy | apply fr_pl_xpay | apply fr_pl_dot | apply fr_pl_matvec | progress fr].
Lemma fr_cg_new pl : fresh_results (cg_new A lg red pl).
Proof. unfold cg_new, scalar_const. frp. Qed.
Lemma fr_cg_step c : fresh_results (cg_step A lg red c).
Proof. unfold cg_step. frp. Qed.
Lemma fr_cg_steps k : forall c, fresh_results (cg_steps A lg red k c).
Proof. induction k as [|k IH]; intros c; cbn [cg_steps]; [apply fr_ret|]. apply fr_bind; [apply IH|]. intros c'. apply fr_cg_step. Qed.
Lemma fr_cg_run pl k : fresh_results (cg_run A lg red pl k).
Proof. unfold cg_run. apply fr_bind; [apply fr_cg_new|]. intros c. apply fr_cg_steps. Qed.
Lemma fr_bicg_step c : fresh_results (bicg_step A lg red c).
Proof. unfold bicg_step, scalar_div, scalar_mul, scalar_neg. frp. Qed.
Lemma fr_bicg_new pl : fresh_results (bicg_new A lg pl).
Proof. unfold bicg_new, scalar_const. frp. Qed.
Lemma fr_bicg_steps k : forall c, fresh_results (bicg_steps A lg red k c).
Proof. induction k as [|k IH]; intros c; cbn [bicg_steps]; [apply fr_ret|]. apply fr_bind; [apply IH|]. intros c'. apply fr_bicg_step. Qed.
Lemma fr_bicg_run pl k : fresh_results (bicg_run A lg red pl k).
Proof. unfold bicg_run. apply fr_bind; [apply fr_bicg_new|]. intros c. apply fr_bicg_steps. Qed.
Lemma fr_gmres_arnoldi pl restart h j : fresh_results (gmres_arnoldi A lg red pl restart h j).
Proof.
  unfold gmres_arnoldi. apply fr_bind; [apply fr_pl_matvec|]. intros _. apply fr_bind; [unfold gmres_orthogonalise, scalar_neg; frp|]. intros h1.
  apply fr_bind; [apply fr_pl_dot|]. intros d. apply fr_bind; [apply fr_scalar_task|]. intros sq. cbn zeta. destruct (_ <? _); unfold scalar_rsqrt; frp.
Qed.
Lemma fr_gmres_step c : fresh_results (gmres_step A lg red c).
Proof.
  unfold gmres_step. apply fr_bind; [unfold gmres_start, scalar_rsqrt; frp|]. intros _. apply fr_bind; [apply fr_mfold; intros; apply fr_gmres_arnoldi|]. intros h. frp.
Qed.
Lemma fr_gmres_run pl restart k : fresh_results (gmres_run A lg red pl restart k).
Proof.
  unfold gmres_run. apply fr_bind; [unfold gmres_new, scalar_const; frp|]. intros c. induction k as [|k IH]; cbn [gmres_steps]; [apply fr_ret|].
  apply fr_bind; [exact IH|]. intros c'. apply fr_gmres_step.
Qed.
End FreshOps.
