(** PropsTrace: property C63.  Every step of a solver issues the same sequence of operations, so the steps can be
    recorded once and replayed with Legion's begin_trace / end_trace (test/BenchmarkStencil.cpp:219-223, 237-241). *)
From Verif Require Import Base Index Outcome Sched Async Arith Launch Vector Matrix Builder Exec Planner Solvers PlannerFacts PlannerSetup PropsPlanner PropsSolver.
From Coq Require Import Reals.
From Verif Require SolverExample.
Set Implicit Arguments.

(** ** Specification: what a trace may depend on *)
(** A location up to the identity of futures, which are new objects in every step. *)
Inductive place := PVec (region fid : nat) (p : point) | PFut | PPart (c : nat).
Definition place_of (l : loc) : place := match l with LVec r f p => PVec r f p | LFut _ => PFut | LPart _ c => PPart c end.

Section Spec.
Variable T : Type.
Variable red : nat -> list T -> T.
(** the same update: same element written, same elements and as many futures read, same computation; combining the partial
    results of a reduction is Legion's business *)
Definition same_update (a b : step loc T) : Prop :=
  place_of (tgt a) = place_of (tgt b) /\ map place_of (rds a) = map place_of (rds b) /\
  (fn a = fn b \/ exists n m, fn a = red n /\ fn b = red m).
(** the same operation: same point tasks, same region requirements (region, field, pieces, privilege), as many future
    arguments, a result or none *)
Definition same_operation (a b : launch T) : Prop :=
  Forall2 (Forall2 same_update) (ln_tasks a) (ln_tasks b) /\ ln_reqs a = ln_reqs b /\
  length (ln_futs a) = length (ln_futs b) /\ (ln_result a = None <-> ln_result b = None).
Definition same_trace (a b : list (launch T)) : Prop := Forall2 same_operation a b.

Lemma same_update_refl a : same_update a a.
Proof. split; [reflexivity|]. split; [reflexivity|left; reflexivity]. Qed.
Lemma same_operation_refl a : same_operation a a.
Proof.
  split; [|repeat split; auto]. induction (ln_tasks a) as [|t ts IH]; constructor; [|exact IH]. induction t as [|u t IHt]; constructor; [apply same_update_refl|exact IHt].
Qed.

(** ** Two programs that issue the same operations *)
Definition sim {X Y} (R : X -> Y -> Prop) (m1 : M T X) (m2 : M T Y) : Prop := forall st1 st2,
  match m1 st1, m2 st2 with
  | Ok (x, l1, st1'), Ok (y, l2, st2') => R x y /\ same_trace l1 l2 /\ next_region st1' = next_region st1 /\ next_region st2' = next_region st2
  | Ok _, _ | _, Ok _ => False
  | _, _ => True
  end.
Definition any {X Y} : X -> Y -> Prop := fun _ _ => True.
Lemma sim_ret X Y (R : X -> Y -> Prop) x y : R x y -> sim R (ret x) (ret y).
Proof. intros H st1 st2. cbn. repeat split; auto. constructor. Qed.
Lemma sim_bind X1 Y1 X2 Y2 (R : X1 -> Y1 -> Prop) (Q : X2 -> Y2 -> Prop) (m1 : M T X1) (m2 : M T Y1) f1 f2 :
  sim R m1 m2 -> (forall x y, R x y -> sim Q (f1 x) (f2 y)) -> sim Q (bind m1 f1) (bind m2 f2).
Proof.
  intros Hm Hf st1 st2. specialize (Hm st1 st2). unfold bind.
  destruct (m1 st1) as [[[x l1] st1']| | |]; destruct (m2 st2) as [[[y l2] st2']| | |]; cbn [obind]; try contradiction; auto.
  destruct Hm as (Hr & Ht & E1 & E2). specialize (Hf x y Hr st1' st2').
  destruct (f1 x st1') as [[[x' k1] st1'']| | |]; destruct (f2 y st2') as [[[y' k2] st2'']| | |]; cbn [obind]; try contradiction; auto.
  destruct Hf as (Hr' & Ht' & E1' & E2'). repeat split; auto; [apply Forall2_app; assumption|congruence|congruence].
Qed.
Lemma sim_lift X (o : outcome X) : sim eq (lift o) (lift o).
Proof. intros st1 st2. unfold lift. destruct o; cbn; auto. repeat split; auto. constructor. Qed.
Definition osim (o1 o2 : outcome (launch T)) : Prop := match o1, o2 with Ok a, Ok b => same_operation a b | Ok _, _ | _, Ok _ => False | _, _ => True end.
Lemma sim_issue o1 o2 : osim o1 o2 -> sim any (issue o1) (issue o2).
Proof. intros H st1 st2. unfold issue. destruct o1; destruct o2; cbn in *; try contradiction; auto. repeat split; auto. constructor; [exact H|constructor]. Qed.
Lemma osim_refl o : osim o o.
Proof. destruct o; cbn; auto. apply same_operation_refl. Qed.
Lemma osim_assert c o1 o2 : osim o1 o2 -> osim (oassert c o1) (oassert c o2).
Proof. destruct c; cbn; auto. Qed.
Lemma osim_submit a b : same_operation a b -> osim (submit a) (submit b).
Proof. intros H. unfold submit. destruct H as (H1 & H2 & H3). rewrite H2. destruct (interfering (ln_reqs b)); cbn; auto. split; auto. Qed.
Lemma sim_fresh : sim any (@fresh_fut T) fresh_fut.
Proof. intros st1 st2. cbn. repeat split; auto. constructor. Qed.
Lemma sim_mfor X (l : list X) f1 f2 : (forall x, In x l -> sim any (f1 x) (f2 x)) -> sim any (mfor l f1) (mfor l f2).
Proof.
  induction l as [|x l IH]; intros H; cbn [mfor]; [apply sim_ret; exact I|]. eapply sim_bind; [apply H; left; reflexivity|]. intros _ _ _. apply IH. intros y Hy. apply H. right. exact Hy.
Qed.
Lemma sim_mfold X Y1 Y2 (R : Y1 -> Y2 -> Prop) (l : list X) f1 f2 : (forall x a b, R a b -> sim R (f1 a x) (f2 b x)) -> forall a b, R a b -> sim R (mfold l a f1) (mfold l b f2).
Proof. intros H. induction l as [|x l IH]; intros a b Hab; cbn [mfold]; [apply sim_ret; exact Hab|]. eapply sim_bind; [apply H; exact Hab|]. intros a' b' H'. apply IH. exact H'. Qed.
Lemma sim_weaken X Y (R Q : X -> Y -> Prop) m1 m2 : (forall x y, R x y -> Q x y) -> sim R m1 m2 -> sim Q m1 m2.
Proof.
  intros H Hm st1 st2. specialize (Hm st1 st2). destruct (m1 st1) as [[[x l1] st1']| | |]; destruct (m2 st2) as [[[y l2] st2']| | |]; auto. destruct Hm as (H1 & H2). split; auto.
Qed.

(** *** scalars *)
Variable A : arith T.
Lemma places_futs fs gs : length fs = length gs -> map place_of (map LFut fs) = map place_of (map LFut gs).
Proof. revert gs. induction fs as [|f fs IH]; intros [|g gs] H; try discriminate; [reflexivity|]. cbn. f_equal. apply IH. injection H as H. exact H. Qed.
Lemma sim_scalar_task fs gs f : length fs = length gs -> sim any (scalar_task fs f) (scalar_task gs f).
Proof.
  intros H. unfold scalar_task. eapply sim_bind; [apply sim_fresh|]. intros n m _. eapply sim_bind; [|intros _ _ _; apply sim_ret; exact I].
  apply sim_issue, osim_submit. unfold scalar_launch. split; [|cbn; repeat split; auto; discriminate]. cbn. repeat constructor. apply places_futs. exact H.
Qed.
Lemma sim_back X (l1 l2 : list X) : l1 <> [] -> l2 <> [] -> sim any (@back T X l1) (@back T X l2).
Proof.
  intros H1 H2 st1 st2. unfold back, lift. destruct (rev l1) as [|a r1] eqn:E1; [exfalso; apply H1; rewrite <- (rev_involutive l1), E1; reflexivity|].
  destruct (rev l2) as [|b r2] eqn:E2; [exfalso; apply H2; rewrite <- (rev_involutive l2), E2; reflexivity|]. cbn. repeat split; auto. constructor.
Qed.

(** *** planner operations: the futures do not matter *)
Variable lg : legion.
Lemma pointwise_same v f g : (forall p, same_update (f p) (g p)) -> Forall2 (Forall2 same_update) (@pointwise T lg v f) (pointwise lg v g).
Proof.
  intros H. unfold pointwise. induction (pieces lg v) as [|piece ps IH]; constructor; [|exact IH]. induction piece as [|p piece IHp]; constructor; [apply H|exact IHp].
Qed.
Lemma axpy_osim y x fs gs : length fs = length gs -> osim (axpy A lg y fs x) (axpy A lg y gs x).
Proof.
  intros H. unfold axpy, alpha_ok. rewrite <- H. apply osim_assert, osim_assert, osim_submit. split; [|cbn; repeat split; auto].
  cbn [ln_tasks]. apply pointwise_same. intros p. unfold axpy_step. split; [reflexivity|]. cbn [rds fn]. rewrite !map_app, (places_futs fs gs H), H. split; [reflexivity|left; reflexivity].
Qed.
Lemma xpay_osim y x fs gs : length fs = length gs -> osim (xpay A lg y fs x) (xpay A lg y gs x).
Proof.
  intros H. unfold xpay, alpha_ok. rewrite <- H. apply osim_assert, osim_assert, osim_submit. split; [|cbn; repeat split; auto].
  cbn [ln_tasks]. apply pointwise_same. intros p. unfold xpay_step. split; [reflexivity|]. cbn [rds fn]. rewrite !map_app, (places_futs fs gs H), H. split; [reflexivity|left; reflexivity].
Qed.
Lemma scal_osim x fs gs : length fs = length gs -> osim (scal A lg x fs) (scal A lg x gs).
Proof.
  intros H. unfold scal, alpha_ok. rewrite <- H. apply osim_assert, osim_submit. split; [|cbn; repeat split; auto].
  cbn [ln_tasks]. apply pointwise_same. intros p. unfold scal_step. split; [reflexivity|]. cbn [rds fn]. rewrite !map_app, (places_futs fs gs H), H. split; [reflexivity|left; reflexivity].
Qed.
Lemma sim_for_spaces (pl : planner T) f g : (forall i, sim any (f i) (g i)) -> sim any (for_spaces pl f) (for_spaces pl g).
Proof. intros H. unfold for_spaces. eapply sim_bind; [apply sim_lift|]. intros n _ <-. apply sim_mfor. intros; apply H. Qed.
Lemma sim_get X Y (R : X -> Y -> Prop) (pl : planner T) v i f g : (forall y, sim R (f y) (g y)) -> sim R (bind (lift (get_vector pl v i)) f) (bind (lift (get_vector pl v i)) g).
Proof. intros H. eapply sim_bind; [apply sim_lift|]. intros y _ <-. apply H. Qed.
Lemma sim_axpy pl d fs gs s : length fs = length gs -> sim any (pl_axpy A lg pl d fs s) (pl_axpy A lg pl d gs s).
Proof. intros H. apply sim_for_spaces. intros i. apply sim_get. intros y. apply sim_get. intros x. apply sim_issue, axpy_osim. exact H. Qed.
Lemma sim_xpay pl d fs gs s : length fs = length gs -> sim any (pl_xpay A lg pl d fs s) (pl_xpay A lg pl d gs s).
Proof. intros H. apply sim_for_spaces. intros i. apply sim_get. intros y. apply sim_get. intros x. apply sim_issue, xpay_osim. exact H. Qed.
Lemma sim_scal pl d f g : sim any (pl_scal A lg pl d f) (pl_scal A lg pl d g).
Proof. apply sim_for_spaces. intros i. apply sim_get. intros x. apply sim_issue, scal_osim. reflexivity. Qed.
Lemma sim_zero_fill pl d : sim any (pl_zero_fill A lg pl d) (pl_zero_fill A lg pl d).
Proof. unfold pl_zero_fill. eapply sim_bind; [apply sim_lift|]. intros vs _ <-. apply sim_mfor. intros v _. apply sim_issue, osim_refl. Qed.
Lemma sim_matvec pl d s : sim any (pl_matvec A lg pl d s) (pl_matvec A lg pl d s).
Proof.
  unfold pl_matvec. eapply sim_bind; [apply sim_zero_fill|]. intros _ _ _. apply sim_mfor. intros pm _. apply sim_get. intros y. apply sim_get. intros x. apply sim_issue, osim_refl.
Qed.
Lemma sim_vector_dot v w : sim any (vector_dot A lg red v w) (vector_dot A lg red v w).
Proof.
  unfold vector_dot. eapply sim_bind; [apply sim_fresh|]. intros n m _. eapply (@sim_bind _ _ _ _ any); [|intros _ _ _; apply sim_ret; exact I].
  intros st1 st2. unfold issue_all, dot. destruct (same_layout v w); cbn [oassert obind]; auto. unfold submit. cbn [ln_reqs].
  destruct (interfering [get_requirement lg v READ_ONLY; get_requirement lg w READ_ONLY]); cbn [obind]; auto.
  split; [exact I|]. split; [|split; reflexivity]. constructor; [|constructor; [|constructor]].
  - split; [|cbn; repeat split; auto]. cbn [ln_tasks]. generalize (combine (seq 0 (length (pieces lg v))) (pieces lg v)) as l. induction l as [|[c piece] l IH]; cbn [map]; constructor; [|exact IH].
    cbn [fst snd]. unfold dot_task. constructor; [|constructor]. split; [reflexivity|]. split; [reflexivity|left; reflexivity].
  - split; [|cbn; repeat split; auto; discriminate]. cbn [ln_tasks]. constructor; [|constructor]. constructor; [|constructor].
    split; [reflexivity|]. cbn [rds fn]. split; [rewrite !map_map; reflexivity|right; exists n, m; auto].
Qed.
Lemma sim_component_dot pl v w i : sim any (component_dot A lg red pl v w i) (component_dot A lg red pl v w i).
Proof. unfold component_dot. apply sim_get. intros x. apply sim_get. intros y. apply sim_vector_dot. Qed.
Lemma sim_dot pl v w : sim any (pl_dot A lg red pl v w) (pl_dot A lg red pl v w).
Proof.
  unfold pl_dot. eapply sim_bind; [apply sim_lift|]. intros n _ <-. eapply sim_bind; [apply sim_component_dot|]. intros a b _. apply sim_mfold; [|exact I].
  intros i x y _. eapply sim_bind; [apply sim_component_dot|]. intros d e _. apply sim_scalar_task. reflexivity.
Qed.

(** *** the solvers *)
(** two solvers on the planner [pl] *)
Variable pl : planner T.
Definition good_cg (a : cg T) : Prop := cg_pl a = pl /\ cg_norms a <> [].
Definition cg_like (a b : cg T) : Prop := good_cg a /\ good_cg b.
Ltac sb L := eapply sim_bind; [apply L|]; intros ? ? _.
Lemma snoc_nonempty X (l : list X) x : l ++ [x] <> [].
Proof. destruct l; discriminate. Qed.
Lemma sim_cg_step a b : cg_like a b -> sim cg_like (cg_step A lg red a) (cg_step A lg red b).
Proof.
  intros ((E1 & N1) & E2 & N2). unfold cg_step. rewrite E1, E2. cbv zeta.
  sb sim_matvec. sb sim_dot. eapply sim_bind; [apply sim_back; assumption|]. intros ? ? _.
  eapply sim_bind; [apply sim_axpy; reflexivity|]. intros ? ? _. eapply sim_bind; [apply sim_axpy; reflexivity|]. intros ? ? _. sb sim_dot.
  eapply sim_bind; [apply sim_xpay; reflexivity|]. intros ? ? _. apply sim_ret. split; (split; [reflexivity|apply snoc_nonempty]).
Qed.
Lemma sim_cg_steps n : forall a b, cg_like a b -> sim cg_like (cg_steps A lg red n a) (cg_steps A lg red n b).
Proof. induction n as [|n IH]; intros a b H; cbn [cg_steps]; [apply sim_ret; exact H|]. eapply sim_bind; [apply IH; exact H|]. intros a' b' H'. apply sim_cg_step. exact H'. Qed.
Definition good_bicg (a : bicg T) : Prop := bi_pl a = pl /\ bi_rho a <> [] /\ bi_alpha a <> [] /\ bi_omega a <> [].
Definition bicg_like (a b : bicg T) : Prop := good_bicg a /\ good_bicg b.
Ltac sc := eapply sim_bind; [apply sim_scalar_task; reflexivity|]; intros ? ? _.
Lemma sim_bicg_step a b : bicg_like a b -> sim bicg_like (bicg_step A lg red a) (bicg_step A lg red b).
Proof.
  intros ((E1 & N1 & N2 & N3) & E2 & N4 & N5 & N6). unfold bicg_step. rewrite E1, E2. cbv zeta.
  sb sim_dot. eapply sim_bind; [apply sim_back; assumption|]. intros ? ? _. sc. eapply sim_bind; [apply sim_back; assumption|]. intros ? ? _. eapply sim_bind; [apply sim_back; assumption|]. intros ? ? _. sc. sc. sc.
  eapply sim_bind; [apply sim_axpy; reflexivity|]. intros ? ? _. eapply sim_bind; [apply sim_xpay; reflexivity|]. intros ? ? _. sb sim_matvec. sb sim_dot.
  eapply sim_bind; [apply sim_back; apply snoc_nonempty|]. intros ? ? _. eapply sim_bind; [apply sim_axpy; reflexivity|]. intros ? ? _. sc. sb sim_matvec. sb sim_dot. sb sim_dot. sc.
  eapply sim_bind; [apply sim_back; apply snoc_nonempty|]. intros ? ? _. eapply sim_bind; [apply sim_axpy; reflexivity|]. intros ? ? _.
  eapply sim_bind; [apply sim_back; apply snoc_nonempty|]. intros ? ? _. eapply sim_bind; [apply sim_axpy; reflexivity|]. intros ? ? _. sc.
  eapply sim_bind; [apply sim_axpy; reflexivity|]. intros ? ? _. apply sim_ret. split; (split; [reflexivity|]; repeat split; apply snoc_nonempty).
Qed.
Lemma sim_bicg_steps n : forall a b, bicg_like a b -> sim bicg_like (bicg_steps A lg red n a) (bicg_steps A lg red n b).
Proof. induction n as [|n IH]; intros a b H; cbn [bicg_steps]; [apply sim_ret; exact H|]. eapply sim_bind; [apply IH; exact H|]. intros a' b' H'. apply sim_bicg_step. exact H'. Qed.
Variable r : nat.
Definition good_gmres (a : gmres T) : Prop := gm_pl a = pl /\ gm_restart a = r.
Definition gmres_like (a b : gmres T) : Prop := good_gmres a /\ good_gmres b.
Lemma all_h_length n h h' : length (all_h n h) = length (all_h n h').
Proof. unfold all_h. induction (seq 0 (n + 1)) as [|i l IH]; [reflexivity|]. cbn [flat_map]. rewrite !app_length, !map_length, IH. reflexivity. Qed.
Lemma sim_gmres_step a b : gmres_like a b -> sim gmres_like (gmres_step A lg red a) (gmres_step A lg red b).
Proof.
  intros ((E1 & E1') & E2 & E2'). unfold gmres_step. rewrite E1, E1', E2, E2'. cbv zeta. eapply sim_bind.
  - unfold gmres_start. sb sim_matvec. eapply sim_bind; [apply sim_xpay; reflexivity|]. intros ? ? _. sb sim_dot. sc. apply sim_scal.
  - intros _ _ _. eapply (@sim_bind _ _ _ _ any).
    + apply sim_mfold; [|exact I]. intros j h h' _. unfold gmres_arnoldi. sb sim_matvec. eapply (@sim_bind _ _ _ _ any).
      * unfold gmres_orthogonalise. apply sim_mfold; [|exact I]. intros k g g' _. sb sim_dot. sc. eapply sim_bind; [apply sim_axpy; reflexivity|]. intros ? ? _. apply sim_ret. exact I.
      * intros g g' _. sb sim_dot. sc. destruct (j + 1 <? r); [|apply sim_ret; exact I]. sc. sb sim_scal. apply sim_ret. exact I.
    + intros h h' _. eapply sim_bind; [apply sim_scalar_task, all_h_length|]. intros ? ? _. eapply sim_bind; [apply sim_mfor; intros j _; apply sim_axpy; reflexivity|]. intros ? ? _.
      apply sim_ret. split; split; reflexivity.
Qed.
Lemma sim_gmres_steps n : forall a b, gmres_like a b -> sim gmres_like (gmres_steps A lg red n a) (gmres_steps A lg red n b).
Proof. induction n as [|n IH]; intros a b H; cbn [gmres_steps]; [apply sim_ret; exact H|]. eapply sim_bind; [apply IH; exact H|]. intros a' b' H'. apply sim_gmres_step. exact H'. Qed.
End Spec.

(** ** Splitting a run *)
Section Split.
Variables T X : Type.
Variable step : X -> M T X.
Variable steps : nat -> X -> M T X.
Hypothesis steps_0 : forall c, steps 0 c = ret c.
Hypothesis steps_S : forall k c, steps (S k) c = bind (steps k c) step.
Lemma steps_split n j c st d lns st' : steps (n + j) c st = Ok (d, lns, st') ->
  exists c1 l1 s1 l2, steps j c st = Ok (c1, l1, s1) /\ steps n c1 s1 = Ok (d, l2, st') /\ lns = l1 ++ l2.
Proof.
  revert d lns st'. induction n as [|n IH]; intros d lns st' H.
  - exists d, lns, st', []. rewrite steps_0. rewrite app_nil_r. split; [exact H|]. split; reflexivity.
  - cbn [Nat.add] in H. rewrite steps_S in H. unfold bind in H. destruct (steps (n + j) c st) as [[[c2 k1] s2]| | |] eqn:E; try discriminate. cbn [obind] in H.
    destruct (step c2 s2) as [[[c3 k2] s3]| | |] eqn:E2; try discriminate. cbn [obind] in H. injection H as <- <- <-.
    destruct (IH c2 k1 s2 eq_refl) as (c1 & l1 & s1 & l2 & H1 & H2 & ->). exists c1, l1, s1, (l2 ++ k2). split; [exact H1|]. split; [|rewrite app_assoc; reflexivity].
    rewrite steps_S. unfold bind. rewrite H2. cbn [obind]. rewrite E2. reflexivity.
Qed.
Variable red : nat -> list T -> T.
Variable good : X -> Prop.
Hypothesis steps_sim : forall n a b, good a -> good b -> sim red (fun a b => good a /\ good b) (steps n a) (steps n b).
Lemma steps_same_trace (new : M T X) st c0 l0 st0 j k n : new st = Ok (c0, l0, st0) -> good c0 ->
  accepted (bind new (steps (n + j))) st -> accepted (bind new (steps (n + k))) st ->
  exists c1 l1 s1 c2 l2 s2 d1 t1 e1 d2 t2 e2,
    bind new (steps j) st = Ok (c1, l1, s1) /\ steps n c1 s1 = Ok (d1, t1, e1) /\
    bind new (steps k) st = Ok (c2, l2, s2) /\ steps n c2 s2 = Ok (d2, t2, e2) /\
    same_trace red t1 t2 /\ next_region e1 = next_region s1 /\ next_region e2 = next_region s2.
Proof.
  intros Hn Hg [[[d1 t1] e1] H1] [[[d2 t2] e2] H2]. unfold bind in H1, H2. rewrite Hn in H1, H2. cbn [obind] in H1, H2.
  destruct (steps (n + j) c0 st0) as [[[d1' k1] e1']| | |] eqn:E1; try discriminate. cbn [obind] in H1. injection H1 as -> <- ->.
  destruct (steps (n + k) c0 st0) as [[[d2' k2] e2']| | |] eqn:E2; try discriminate. cbn [obind] in H2. injection H2 as -> <- ->.
  destruct (steps_split _ _ E1) as (c1 & l1 & s1 & t1 & A1 & A2 & ->). destruct (steps_split _ _ E2) as (c2 & l2 & s2 & t2 & B1 & B2 & ->).
  assert (G1 := steps_sim j Hg Hg st0 st0). rewrite A1 in G1. destruct G1 as ((G1 & _) & _ & R1 & _).
  assert (G2 := steps_sim k Hg Hg st0 st0). rewrite B1 in G2. destruct G2 as ((G2 & _) & _ & R2 & _).
  assert (G := steps_sim n G1 G2 s1 s2). rewrite A2, B2 in G. destruct G as (_ & Ht & R3 & R4).
  exists c1, (l0 ++ l1), s1, c2, (l0 ++ l2), s2, d1, t1, e1, d2, t2, e2.
  split; [unfold bind; rewrite Hn; cbn [obind]; rewrite A1; reflexivity|]. split; [exact A2|].
  split; [unfold bind; rewrite Hn; cbn [obind]; rewrite B1; reflexivity|]. split; [exact B2|]. split; [exact Ht|]. split; congruence.
Qed.
End Split.

(** ** C63.  [n] consecutive steps issue the same operations, no matter how many steps went before: after [j] steps and
    after [k] steps.  No region is created by a step. *)
(** No restriction to solvers that are accepted: a run on a planner that was set up is always accepted (C54). *)
Lemma ok_bind T X Y (m : M T X) (f : X -> M T Y) st y l2 s2 : bind m f st = Ok (y, l2, s2) -> exists x l s l', m st = Ok (x, l, s) /\ f x s = Ok (y, l', s2).
Proof.
  unfold bind. destruct (m st) as [[[x l] s]| | |] eqn:E; try discriminate. cbn [obind]. destruct (f x s) as [[[y' l'] s']| | |] eqn:E2; try discriminate. cbn [obind]. intros H. injection H as <- _ <-.
  exists x, l, s, l'. split; [reflexivity|]. exact E2.
Qed.
Ltac unbind H := repeat (apply ok_bind in H; destruct H as (? & ? & ? & ? & ? & H)).
Lemma cg_new_good T (A : arith T) lg red pl0 st c l s : cg_new A lg red pl0 st = Ok (c, l, s) -> good_cg (cg_pl c) c.
Proof. intros H. unfold cg_new in H. unbind H. injection H as <- _ _. split; [reflexivity|discriminate]. Qed.
Lemma bicg_new_good T (A : arith T) lg pl0 st c l s : bicg_new A lg pl0 st = Ok (c, l, s) -> good_bicg (bi_pl c) c.
Proof. intros H. unfold bicg_new in H. unbind H. injection H as <- _ _. split; [reflexivity|]. repeat split; discriminate. Qed.
Lemma gmres_new_good T (A : arith T) lg pl0 r st c l s : gmres_new A lg pl0 r st = Ok (c, l, s) -> good_gmres (gm_pl c) r c.
Proof. intros H. unfold gmres_new in H. unbind H. injection H as <- _ _. split; reflexivity. Qed.
Theorem C63_cg_steps_replay : forall (T : Type) (A : arith T) lg red (cs : list (setup_call T)) st pl0 (j k n : nat),
  legion_ok lg -> set_up lg cs st pl0 -> 0 < length (sols_of cs) ->
  exists c1 l1 s1 c2 l2 s2 d1 t1 e1 d2 t2 e2,
    cg_run A lg red pl0 j st = Ok (c1, l1, s1) /\ cg_steps A lg red n c1 s1 = Ok (d1, t1, e1) /\
    cg_run A lg red pl0 k st = Ok (c2, l2, s2) /\ cg_steps A lg red n c2 s2 = Ok (d2, t2, e2) /\
    same_trace red t1 t2 /\ next_region e1 = next_region s1 /\ next_region e2 = next_region s2.
Proof.
  intros T A lg red cs st pl0 j k n Hlg Hs Hl.
  assert (Acc : forall m, accepted (cg_run A lg red pl0 m) st) by (intros m; exact (proj1 (@C54_cg_runs T A lg red cs st pl0 (fun _ => a0 A) m Hlg Hs Hl))).
  destruct (Acc 0) as [[[c0 l0] s0] E0]. unfold cg_run in E0. apply ok_bind in E0. destruct E0 as (c & l & s & l' & E & _).
  apply (@steps_same_trace T (cg T) (cg_step A lg red) (cg_steps A lg red) (fun _ => eq_refl) (fun _ _ => eq_refl) red (good_cg (cg_pl c))) with (new := cg_new A lg red pl0) (c0 := c) (l0 := l) (st0 := s).
  - intros m a b Ha Hb. apply sim_cg_steps. split; assumption.
  - exact E.
  - eapply cg_new_good. exact E.
  - apply Acc.
  - apply Acc.
Qed.
Theorem C63_bicgstab_steps_replay : forall (T : Type) (A : arith T) lg red (cs : list (setup_call T)) st pl0 (j k n : nat),
  legion_ok lg -> set_up lg cs st pl0 -> 0 < length (sols_of cs) ->
  exists c1 l1 s1 c2 l2 s2 d1 t1 e1 d2 t2 e2,
    bicg_run A lg red pl0 j st = Ok (c1, l1, s1) /\ bicg_steps A lg red n c1 s1 = Ok (d1, t1, e1) /\
    bicg_run A lg red pl0 k st = Ok (c2, l2, s2) /\ bicg_steps A lg red n c2 s2 = Ok (d2, t2, e2) /\
    same_trace red t1 t2 /\ next_region e1 = next_region s1 /\ next_region e2 = next_region s2.
Proof.
  intros T A lg red cs st pl0 j k n Hlg Hs Hl.
  assert (Acc : forall m, accepted (bicg_run A lg red pl0 m) st) by (intros m; exact (proj1 (@C54_bicgstab_runs T A lg red cs st pl0 (fun _ => a0 A) m Hlg Hs Hl))).
  destruct (Acc 0) as [[[c0 l0] s0] E0]. unfold bicg_run in E0. apply ok_bind in E0. destruct E0 as (c & l & s & l' & E & _).
  apply (@steps_same_trace T (bicg T) (bicg_step A lg red) (bicg_steps A lg red) (fun _ => eq_refl) (fun _ _ => eq_refl) red (good_bicg (bi_pl c))) with (new := bicg_new A lg pl0) (c0 := c) (l0 := l) (st0 := s).
  - intros m a b Ha Hb. apply sim_bicg_steps. split; assumption.
  - exact E.
  - eapply bicg_new_good; eassumption.
  - apply Acc.
  - apply Acc.
Qed.
Theorem C63_gmres_steps_replay : forall (T : Type) (A : arith T) lg red (cs : list (setup_call T)) st pl0 (restart j k n : nat),
  legion_ok lg -> set_up lg cs st pl0 -> 0 < length (sols_of cs) ->
  exists c1 l1 s1 c2 l2 s2 d1 t1 e1 d2 t2 e2,
    gmres_run A lg red pl0 restart j st = Ok (c1, l1, s1) /\ gmres_steps A lg red n c1 s1 = Ok (d1, t1, e1) /\
    gmres_run A lg red pl0 restart k st = Ok (c2, l2, s2) /\ gmres_steps A lg red n c2 s2 = Ok (d2, t2, e2) /\
    same_trace red t1 t2 /\ next_region e1 = next_region s1 /\ next_region e2 = next_region s2.
Proof.
  intros T A lg red cs st pl0 r j k n Hlg Hs Hl.
  assert (Acc : forall m, accepted (gmres_run A lg red pl0 r m) st) by (intros m; exact (proj1 (@C54_gmres_runs T A lg red cs st pl0 (fun _ => a0 A) r m Hlg Hs Hl))).
  destruct (Acc 0) as [[[c0 l0] s0] E0]. unfold gmres_run in E0. apply ok_bind in E0. destruct E0 as (c & l & s & l' & E & _).
  apply (@steps_same_trace T (gmres T) (gmres_step A lg red) (gmres_steps A lg red) (fun _ => eq_refl) (fun _ _ => eq_refl) red (good_gmres (gm_pl c) r)) with (new := gmres_new A lg pl0 r) (c0 := c) (l0 := l) (st0 := s).
  - intros m a b Ha Hb. apply sim_gmres_steps. split; assumption.
  - exact E.
  - eapply gmres_new_good. exact E.
  - apply Acc.
  - apply Acc.
Qed.
(** ** Example: conjugate gradients on the system diag(2, 3) x = (1, 1), for any reduction order.  The ten steps after step 3
    issue the same operations as the ten steps after step 7. *)
Example C63_example : forall red, exists pl0, set_up PropsMatrix.lg2 (SolverExample.diag_calls 2 3) PropsPlanner.ex_st pl0 /\
  exists c1 l1 s1 c2 l2 s2 d1 t1 e1 d2 t2 e2,
    cg_run exact PropsMatrix.lg2 red pl0 3 PropsPlanner.ex_st = Ok (c1, l1, s1) /\ cg_steps exact PropsMatrix.lg2 red 10 c1 s1 = Ok (d1, t1, e1) /\
    cg_run exact PropsMatrix.lg2 red pl0 7 PropsPlanner.ex_st = Ok (c2, l2, s2) /\ cg_steps exact PropsMatrix.lg2 red 10 c2 s2 = Ok (d2, t2, e2) /\
    same_trace red t1 t2 /\ next_region e1 = next_region s1 /\ next_region e2 = next_region s2.
Proof.
  intros red. destruct (SolverExample.diag_set_up 2 3) as [pl0 Hs]. exists pl0. split; [exact Hs|].
  apply (@C63_cg_steps_replay _ exact PropsMatrix.lg2 red _ _ _ 3 7 10 PropsMatrix.lg2_ok Hs). apply SolverExample.diag_some.
Qed.
