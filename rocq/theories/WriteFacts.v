(** WriteFacts: which storage the operations of a program are allowed to write. *)
From Verif Require Import Base Index Outcome Sched Async Arith Launch Vector VectorFacts LaunchFacts Matrix Builder BuilderFacts Exec Planner Solvers PropsVector PropsSolver.
Set Implicit Arguments.

Section Writes.
Variable T : Type.
Variable A : arith T.
Variable lg : legion.
Variable red : nat -> list T -> T.
Variable ok : loc -> Prop.
Variables f0 r0 : nat.
Hypothesis ok_fut : forall n, f0 <= n -> ok (LFut n).
Hypothesis ok_part : forall n c, f0 <= n -> ok (LPart n c).
Hypothesis ok_region : forall r f p, r0 <= r -> ok (LVec r f p).
Definition later (st : ist) : Prop := f0 <= next_fut st /\ r0 <= next_region st.
(** the operations of [m] have write permission on [ok] only *)
Definition wr {X} (m : M T X) (Q : X -> Prop) : Prop := forall st x lns st', later st -> m st = Ok (x, lns, st') ->
  later st' /\ Forall (fun ln => forall l, declared_writes ln l -> ok l) lns /\ Q x.
Lemma wr_conseq X (m : M T X) (P Q : X -> Prop) : wr m P -> (forall x, P x -> Q x) -> wr m Q.
Proof. intros H K st x lns st' L E. destruct (H st x lns st' L E) as [A1 [A2 A3]]. auto. Qed.
Lemma wr_ret X (x : X) (Q : X -> Prop) : Q x -> wr (ret x) Q.
Proof. intros H st y lns st' L E. injection E as <- <- <-. split; [exact L|]. split; [constructor|exact H]. Qed.
Lemma wr_lift X (o : outcome X) (Q : X -> Prop) : (forall x, o = Ok x -> Q x) -> wr (lift o) Q.
Proof. intros H st y lns st' L E. unfold lift in E. destruct o as [x| | |]; cbn in E; try discriminate. injection E as <- <- <-. split; [exact L|]. split; [constructor|auto]. Qed.
Lemma wr_massert b (Q : unit -> Prop) : Q tt -> wr (massert b) Q.
Proof. intros H st y lns st' L E. unfold massert in E. destruct b; [|discriminate]. injection E as <- <- <-. split; [exact L|]. split; [constructor|exact H]. Qed.
Lemma wr_bind X Y (m : M T X) (f : X -> M T Y) (P : X -> Prop) Q : wr m P -> (forall x, P x -> wr (f x) Q) -> wr (bind m f) Q.
Proof.
  intros H K st y lns st' L E. unfold bind in E. destruct (m st) as [[[x l1] st1]| | |] eqn:E1; cbn [obind] in E; try discriminate.
  destruct (f x st1) as [[[y2 l2] st2]| | |] eqn:E2; cbn [obind] in E; try discriminate. injection E as <- <- <-.
  destruct (H _ _ _ _ L E1) as [L1 [F1 P1]]. destruct (K x P1 _ _ _ _ L1 E2) as [L2 [F2 P2]]. split; [exact L2|]. split; [apply Forall_app; auto|exact P2].
Qed.
Lemma wr_issue (o : outcome (launch T)) : (forall ln, o = Ok ln -> forall l, declared_writes ln l -> ok l) -> wr (issue o) (fun _ => True).
Proof. intros H st y lns st' L E. unfold issue in E. destruct o as [ln| | |]; cbn in E; try discriminate. injection E as <- <- <-. split; [exact L|]. split; [constructor; [exact (H ln eq_refl)|constructor]|exact I]. Qed.
Lemma wr_mfor X (f : X -> M T unit) l : (forall x, In x l -> wr (f x) (fun _ => True)) -> wr (mfor l f) (fun _ => True).
Proof.
  induction l as [|x l IH]; intros H; cbn [mfor]; [apply wr_ret; exact I|]. eapply wr_bind; [apply H; left; reflexivity|]. intros _ _. apply IH. intros y Hy. apply H. right. exact Hy.
Qed.
Lemma wr_mfold X Y (f : Y -> X -> M T Y) (I : Y -> Prop) l : (forall a x, In x l -> I a -> wr (f a x) I) -> forall a, I a -> wr (mfold l a f) I.
Proof.
  induction l as [|x l IH]; intros H a Ha; cbn [mfold]; [apply wr_ret; exact Ha|]. eapply wr_bind; [apply H; [left; reflexivity|exact Ha]|]. intros b Hb. apply IH; [|exact Hb].
  intros c y Hy. apply H. right. exact Hy.
Qed.
Lemma wr_scalar_task args f : wr (scalar_task args f) (fun _ => True).
Proof.
  intros st x lns st' [L1 L2] E. cbn in E. injection E as <- <- <-. split; [split; cbn; lia|]. split; [|exact I]. constructor; [|constructor].
  intros l Hl. destruct l as [r f' p|n|n c]; cbn in Hl; [destruct Hl as [rq [[] _]]|injection Hl as <-; apply ok_fut; exact L1|destruct Hl].
Qed.
Lemma wr_vector_dot v w : wr (vector_dot A lg red v w) (fun _ => True).
Proof.
  intros st x lns st' [L1 L2] E. unfold vector_dot, bind, fresh_fut, issue_all in E. cbn [obind] in E. unfold dot in E.
  destruct (same_layout v w); cbn [oassert obind] in E; [|discriminate]. unfold submit in E. destruct (interfering _); cbn [obind] in E; [discriminate|].
  cbn [obind ret app] in E. injection E as <- <- <-. split; [split; cbn; lia|]. split; [|exact I]. constructor; [|constructor; [|constructor]].
  - intros l Hl. destruct l as [r f' p|n|n c]; cbn in Hl.
    + destruct Hl as [rq [[<-|[<-|[]]] (_ & _ & Hw & _)]]; discriminate Hw.
    + discriminate Hl.
    + apply in_map_iff in Hl. destruct Hl as [c' [E _]]. injection E as <- _. apply ok_part. exact L1.
  - intros l Hl. destruct l as [r f' p|n|n c]; cbn in Hl; [destruct Hl as [rq [[] _]]|injection Hl as <-; apply ok_fut; exact L1|destruct Hl].
Qed.
(** every entry of vector [v] may be written *)
Definition vok (v : pvec) : Prop := forall p, In p (concat (pieces lg v)) -> ok (at_point v p).
Lemma req_ok (v : pvec) (rest : list requirement) tasks futs : vok v -> (forall rq, In rq rest -> may_write (rq_priv rq) = false) -> forall pr,
  forall l, declared_writes (mk_launch (T := T) tasks (get_requirement lg v pr :: rest) futs None [] []) l -> ok l.
Proof.
  intros Hv Hr pr l Hl. destruct l as [r f' p|n|n c]; cbn in Hl; [|discriminate|destruct Hl].
  destruct Hl as [rq [[<-|Hin] (H1 & H2 & H3 & H4)]].
  - cbn in H1, H2, H4. subst. apply (Hv p). exact H4.
  - rewrite (Hr rq Hin) in H3. discriminate.
Qed.
Lemma wr_call v op : vok v -> wr (issue (call A lg v op)) (fun _ => True).
Proof.
  intros Hv. apply wr_issue. intros ln E.
  destruct op; cbn [call] in E; unfold constant_fill, constant_fill_future, zero_fill, copy, scal, axpy, xpay, constant_fill in E;
    repeat match goal with H : oassert _ _ = Ok _ |- _ => apply oassert_ok in H; destruct H as [_ H] end; apply submit_ok in E; destruct E as [-> _].
  all: intros l Hl; destruct l as [? ? p'|?|? ?]; cbn in Hl; [|discriminate|destruct Hl]; destruct Hl as [rq [Hin (H1 & H2 & H3 & H4)]]; cbn in Hin;
    repeat match goal with H : _ \/ _ |- _ => destruct H as [<-|H] | H : False |- _ => destruct H end; cbn in *; try discriminate; subst; apply (Hv p'); exact H4.
Qed.
Lemma wr_zero_fill v : vok v -> wr (issue (zero_fill A lg v)) (fun _ => True).
Proof. apply (@wr_call v ZeroFill). Qed.
Lemma wr_matvec m y x kps gs : vok y -> wr (issue (matvec A lg m y x kps gs)) (fun _ => True).
Proof.
  intros Hv. apply wr_issue. intros ln E. unfold matvec in E. destruct (_ && _); [|discriminate]. destruct (matvec_tasks A lg m y x kps gs); cbn [obind] in E; try discriminate.
  apply submit_ok in E. destruct E as [-> _]. unfold matvec_reqs. apply req_ok; [exact Hv|]. cbn. intros rq [<-|[]]. reflexivity.
Qed.
(** every component of planner vector [vi] may be written *)
Definition row_ok (pl : planner T) (vi : nat) : Prop := forall vs v, vector_row pl vi = Ok vs -> In v vs -> vok v.
Lemma get_ok pl vi i v : row_ok pl vi -> get_vector pl vi i = Ok v -> vok v.
Proof.
  intros H E. unfold get_vector in E. destruct (vector_row pl vi) as [vs| | |] eqn:Er; cbn [obind] in E; try discriminate. destruct (nth_error vs i) eqn:Ei; [|discriminate]. injection E as <-.
  exact (H vs _ Er (nth_error_In _ _ Ei)).
Qed.
Lemma wr_pl_zero_fill pl vi : row_ok pl vi -> wr (pl_zero_fill A lg pl vi) (fun _ => True).
Proof. intros H. unfold pl_zero_fill. eapply wr_bind with (P := fun vs => vector_row pl vi = Ok vs); [apply wr_lift; auto|]. intros vs E. apply wr_mfor. intros v Hv. apply wr_zero_fill. exact (H vs v E Hv). Qed.
Lemma wr_get pl vi i : row_ok pl vi -> wr (lift (get_vector pl vi i)) vok.
Proof. intros H. apply wr_lift. intros v. apply get_ok. exact H. Qed.
Lemma wr_any X (o : outcome X) : wr (lift o) (fun _ => True).
Proof. apply wr_lift. auto. Qed.
Lemma wr_pl_copy pl d x : row_ok pl d -> wr (pl_copy A lg pl d x) (fun _ => True).
Proof. intros H. unfold pl_copy, for_spaces. eapply wr_bind; [apply wr_any|]. intros n _. apply wr_mfor. intros i _. eapply wr_bind; [apply wr_get; exact H|]. intros y Hy. eapply wr_bind; [apply wr_any|]. intros z _. apply (@wr_call y (Copy z) Hy). Qed.
Lemma wr_pl_scal pl d a : row_ok pl d -> wr (pl_scal A lg pl d a) (fun _ => True).
Proof. intros H. unfold pl_scal, for_spaces. eapply wr_bind; [apply wr_any|]. intros n _. apply wr_mfor. intros i _. eapply wr_bind; [apply wr_get; exact H|]. intros y Hy. apply (@wr_call y (Scal [a]) Hy). Qed.
Lemma wr_pl_axpy pl d fs x : row_ok pl d -> wr (pl_axpy A lg pl d fs x) (fun _ => True).
Proof. intros H. unfold pl_axpy, for_spaces. eapply wr_bind; [apply wr_any|]. intros n _. apply wr_mfor. intros i _. eapply wr_bind; [apply wr_get; exact H|]. intros y Hy. eapply wr_bind; [apply wr_any|]. intros z _. apply (@wr_call y (Axpy fs z) Hy). Qed.
Lemma wr_pl_xpay pl d fs x : row_ok pl d -> wr (pl_xpay A lg pl d fs x) (fun _ => True).
Proof. intros H. unfold pl_xpay, for_spaces. eapply wr_bind; [apply wr_any|]. intros n _. apply wr_mfor. intros i _. eapply wr_bind; [apply wr_get; exact H|]. intros y Hy. eapply wr_bind; [apply wr_any|]. intros z _. apply (@wr_call y (Xpay fs z) Hy). Qed.
Lemma wr_component_dot pl v w i : wr (component_dot A lg red pl v w i) (fun _ => True).
Proof. unfold component_dot. eapply wr_bind; [apply wr_any|]. intros y _. eapply wr_bind; [apply wr_any|]. intros z _. apply wr_vector_dot. Qed.
Lemma wr_pl_dot pl v w : wr (pl_dot A lg red pl v w) (fun _ => True).
Proof.
  unfold pl_dot. eapply wr_bind; [apply wr_any|]. intros n _. eapply wr_bind; [apply wr_component_dot|]. intros d _. apply wr_mfold; [|exact I]. intros a i _ _.
  eapply wr_bind; [apply wr_component_dot|]. intros e _. apply wr_scalar_task.
Qed.
Lemma wr_pl_matvec pl d x : row_ok pl d -> wr (pl_matvec A lg pl d x) (fun _ => True).
Proof.
  intros H. unfold pl_matvec. eapply wr_bind; [apply wr_pl_zero_fill; exact H|]. intros _ _. apply wr_mfor. intros pm _. eapply wr_bind; [apply wr_get; exact H|]. intros y Hy.
  eapply wr_bind; [apply wr_any|]. intros z _. apply wr_matvec. exact Hy.
Qed.
(** the workspace is made of new regions *)
Lemma wr_fresh_region : wr (@fresh_region T) (fun r => r0 <= r).
Proof. intros st x lns st' [L1 L2] E. injection E as <- <- <-. split; [split; cbn; lia|]. split; [constructor|exact L2]. Qed.
Lemma make_vector_region q r j v : make_vector lg q r j = Ok v -> pv_region v = r.
Proof. unfold make_vector. intros H. repeat match goal with H : oassert _ _ = Ok _ |- _ => apply oassert_ok in H; destruct H as [_ H] end. injection H as <-. reflexivity. Qed.
Lemma region_vok v : r0 <= pv_region v -> vok v.
Proof. intros H p _. apply ok_region. exact H. Qed.
Lemma sequence_in X (l : list (outcome X)) : forall xs x, sequence l = Ok xs -> In x xs -> In (Ok x) l.
Proof.
  induction l as [|o l IH]; intros xs x E Hx; cbn [sequence] in E; [injection E as <-; destruct Hx|]. destruct o as [y| | |]; cbn [obind] in E; try discriminate.
  destruct (sequence l) as [ys| | |]; cbn [obind] in E; try discriminate. injection E as <-. destruct Hx as [<-|Hx]; [left; reflexivity|right; eapply IH; [reflexivity|exact Hx]].
Qed.
Lemma wr_workspace_rows spaces : forall parts k, wr (workspace_rows T lg spaces parts k) (fun r => forall vs v, In vs (snd r) -> In v vs -> vok v).
Proof.
  induction spaces as [|a spaces IH]; intros [|q parts] k; cbn [workspace_rows]; try (apply wr_ret; cbn; intros vs v []).
  eapply wr_bind; [apply wr_fresh_region|]. intros r Hr. eapply wr_bind with (P := fun vs => forall v, In v vs -> vok v).
  - apply wr_lift. intros vs E v Hv. apply (@sequence_in _ _ _ _ E) in Hv. apply in_map_iff in Hv. destruct Hv as [j [Ej _]]. apply region_vok. rewrite (@make_vector_region _ _ _ _ Ej). exact Hr.
  - intros vs Hvs. eapply wr_bind; [apply IH|]. intros rest Hrest. apply wr_ret. cbn [snd]. intros ws v [<-|Hin] Hv; [apply Hvs; exact Hv|eapply Hrest; eassumption].
Qed.
(** the planner during a run: everything but the right-hand side (vector 1) may be written *)
Definition pl_ok (pl : planner T) : Prop := forall vi, vi <> RHS -> row_ok pl vi.
Lemma wr_allocate pl k : row_ok pl SOL -> wr (allocate_workspace (T := T) lg pl k) pl_ok.
Proof.
  intros Hs. unfold allocate_workspace. eapply wr_bind; [apply (@wr_massert _ (fun _ => True)); exact I|]. intros _ _. eapply wr_bind; [apply (@wr_massert _ (fun _ => True)); exact I|]. intros _ _.
  eapply wr_bind; [apply wr_workspace_rows|]. intros r Hr. apply wr_ret. intros [|[|j]] Hne vs v E Hv.
  - cbn in E. injection E as <-. apply (Hs (pl_sol pl) v); [reflexivity|exact Hv].
  - exfalso. apply Hne. reflexivity.
  - cbn [vector_row pl_ws] in E. destruct (nth_error _ j) as [ws|] eqn:Ej; [|discriminate]. injection E as <-. apply nth_error_In, in_map_iff in Ej. destruct Ej as [i [<- _]].
    unfold column in Hv. apply in_flat_map in Hv. destruct Hv as [row [Hrow Hv]]. destruct (nth_error row i) as [u|] eqn:Ei; [|destruct Hv]. destruct Hv as [<-|[]]. apply (Hr row u Hrow (nth_error_In _ _ Ei)).
Qed.
Lemma wr_back X (l : list X) : wr (back T l) (fun _ => True).
Proof. apply wr_any. Qed.
Lemma basis_ok pl i : pl_ok pl -> row_ok pl (krylov_basis i).
Proof. intros H. apply H. unfold krylov_basis, RHS. lia. Qed.
Ltac rows := match goal with H : pl_ok ?pl |- row_ok ?pl ?vi => apply H; discriminate | H : pl_ok ?pl |- row_ok ?pl (krylov_basis _) => apply basis_ok; exact H | _ => idtac end.
Ltac wop m := lazymatch m with
  | scalar_task _ _ => apply wr_scalar_task
  | pl_dot _ _ _ _ _ _ => apply wr_pl_dot
  | back _ _ => apply wr_back
  | pl_copy _ _ _ _ _ => apply wr_pl_copy; rows
  | pl_zero_fill _ _ _ _ => apply wr_pl_zero_fill; rows
  | pl_scal _ _ _ _ _ => apply wr_pl_scal; rows
  | pl_axpy _ _ _ _ _ _ => apply wr_pl_axpy; rows
  | pl_xpay _ _ _ _ _ _ => apply wr_pl_xpay; rows
  | pl_matvec _ _ _ _ _ => apply wr_pl_matvec; rows
  end.
Ltac ws := repeat lazymatch goal with |- wr (bind ?m _) _ => eapply wr_bind; [wop m|intros ? _] end.
Lemma wr_cg_new pl : row_ok pl SOL -> wr (cg_new A lg red pl) (fun c => pl_ok (cg_pl c)).
Proof. intros H. unfold cg_new, scalar_const. eapply wr_bind; [apply wr_scalar_task|]. intros z _. eapply wr_bind; [apply wr_allocate; exact H|]. intros pl' Hpl. ws. apply wr_ret. exact Hpl. Qed.
Lemma wr_cg_step c : pl_ok (cg_pl c) -> wr (cg_step A lg red c) (fun c => pl_ok (cg_pl c)).
Proof. intros H. unfold cg_step. cbn zeta. ws. apply wr_ret. exact H. Qed.
Lemma wr_cg_run pl k : row_ok pl SOL -> wr (cg_run A lg red pl k) (fun _ => True).
Proof.
  intros H. unfold cg_run. eapply wr_bind; [apply wr_cg_new; exact H|]. intros c Hc. apply wr_conseq with (P := fun c => pl_ok (cg_pl c)); [|auto]. revert c Hc.
  induction k as [|k IH]; intros c Hc; cbn [cg_steps]; [apply wr_ret; exact Hc|]. eapply wr_bind; [apply IH; exact Hc|]. intros c' Hc'. apply wr_cg_step. exact Hc'.
Qed.
Lemma wr_bicg_new pl : row_ok pl SOL -> wr (bicg_new A lg pl) (fun c => pl_ok (bi_pl c)).
Proof. intros H. unfold bicg_new, scalar_const. do 3 (eapply wr_bind; [apply wr_scalar_task|]; intros ? _). eapply wr_bind; [apply wr_allocate; exact H|]. intros pl' Hpl. ws. apply wr_ret. exact Hpl. Qed.
Lemma wr_bicg_step c : pl_ok (bi_pl c) -> wr (bicg_step A lg red c) (fun c => pl_ok (bi_pl c)).
Proof. intros H. unfold bicg_step, scalar_div, scalar_mul, scalar_neg. cbn zeta. ws. apply wr_ret. exact H. Qed.
Lemma wr_bicg_run pl k : row_ok pl SOL -> wr (bicg_run A lg red pl k) (fun _ => True).
Proof.
  intros H. unfold bicg_run. eapply wr_bind; [apply wr_bicg_new; exact H|]. intros c Hc. apply wr_conseq with (P := fun c => pl_ok (bi_pl c)); [|auto]. revert c Hc.
  induction k as [|k IH]; intros c Hc; cbn [bicg_steps]; [apply wr_ret; exact Hc|]. eapply wr_bind; [apply IH; exact Hc|]. intros c' Hc'. apply wr_bicg_step. exact Hc'.
Qed.
Lemma wr_gmres_step c : pl_ok (gm_pl c) -> wr (gmres_step A lg red c) (fun c => pl_ok (gm_pl c)).
Proof.
  intros H. unfold gmres_step. cbn zeta. assert (B := fun i => basis_ok i H). eapply wr_bind.
  - unfold gmres_start, scalar_rsqrt. ws. apply wr_pl_scal, B.
  - intros _ _. eapply wr_bind with (P := fun _ => True).
    + apply wr_mfold; [|exact I]. intros h j _ _. unfold gmres_arnoldi, scalar_sqrt, scalar_rsqrt. ws. eapply wr_bind with (P := fun _ => True).
      * unfold gmres_orthogonalise, scalar_neg. apply wr_mfold; [|exact I]. intros h' k _ _. ws. apply wr_ret. exact I.
      * intros h' _. ws. cbn zeta. destruct (j + 1 <? gm_restart c); [ws|]; apply wr_ret; exact I.
    + intros h _. ws. eapply wr_bind; [apply wr_mfor; intros j _; apply wr_pl_axpy, H; discriminate|]. intros _ _. apply wr_ret. exact H.
Qed.
Lemma wr_gmres_run pl restart k : row_ok pl SOL -> wr (gmres_run A lg red pl restart k) (fun _ => True).
Proof.
  intros H. unfold gmres_run. eapply wr_bind with (P := fun c => pl_ok (gm_pl c)).
  - unfold gmres_new, scalar_const. eapply wr_bind; [apply wr_scalar_task|]. intros z _. eapply wr_bind; [apply wr_allocate; exact H|]. intros pl' Hpl. ws. apply wr_ret. exact Hpl.
  - intros c Hc. apply wr_conseq with (P := fun c => pl_ok (gm_pl c)); [|auto]. revert c Hc.
    induction k as [|k IH]; intros c Hc; cbn [gmres_steps]; [apply wr_ret; exact Hc|]. eapply wr_bind; [apply IH; exact Hc|]. intros c' Hc'. apply wr_gmres_step. exact Hc'.
Qed.
End Writes.
