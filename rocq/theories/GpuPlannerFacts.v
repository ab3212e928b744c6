(** GpuPlannerFacts: launches whose point tasks run on CPUs or GPUs: they respect their privileges, their tasks do not
    interfere, and what they leave in the destination. *)
From Coq Require Import Reals Lra.
From Verif Require Import Base Index Outcome Sched Async Arith Launch Vector PartitionSpec VectorFacts LaunchFacts Builder BuilderFacts
  ExactSum Matrix MatrixSpec MatrixFacts MatvecFacts PropsMatrix Planner PlannerFacts Gpu GpuPlanner.
Set Implicit Arguments.

Section Piecewise.
Variable T : Type.
Variable A : arith T.
Variable lg : legion.
Hypothesis Hlg : legion_ok lg.
Notation run := (run loc_dec).

(** a task that writes only its destination piece and reads only it and its source piece *)
Definition acts (dst src : pvec) (piece ghost : list point) (t : list (step loc T)) : Prop :=
  forall st, In st t -> (exists p, In p piece /\ tgt st = at_point dst p) /\
    forall l, In l (rds st) -> (exists p, In p piece /\ l = at_point dst p) \/ (exists q, In q ghost /\ l = at_point src q).
Definition piecewise (dst src : pvec) (ghosts : list (list point)) (ts : list (list (step loc T))) : Prop :=
  forall c t, nth_error ts c = Some t -> exists piece ghost, nth_error (pieces lg dst) c = Some piece /\ nth_error ghosts c = Some ghost /\
    acts dst src piece ghost t.

Lemma piecewise_non_interfering dst src ghosts ts : constructed lg dst -> distinct dst src -> piecewise dst src ghosts ts -> non_interfering ts.
Proof.
  intros Hc Hd Hp i j ti tj l Hij Hi Hj [st [Hst Ht]]. destruct (constructed_pieces Hlg Hc) as [Hn _].
  destruct (Hp _ _ Hi) as (pi & gi & Ei & _ & Ai). destruct (Hp _ _ Hj) as (pj & gj & Ej & _ & Aj).
  destruct (proj1 (Ai st Hst)) as [p [Hpi Ep]]. rewrite <- Ht, Ep.
  assert (K : forall q, In q pj -> at_point dst p <> at_point dst q).
  { intros q Hq E. apply at_point_inj in E. subst q. apply Hij. apply (@NoDup_concat_nth _ (pieces lg dst) i j pi pj p); assumption. }
  split; intros [st' [Hst' Hl]]; destruct (Aj st' Hst') as [W Rd].
  - destruct W as [q [Hq Eq]]. rewrite Eq in Hl. apply (K q Hq). symmetry. exact Hl.
  - destruct (Rd _ Hl) as [[q [Hq E]]|[q [_ E]]]; [apply (K q Hq E)|apply (Hd p q E)].
Qed.
Lemma piecewise_good dst src ghosts ts : constructed lg dst -> distinct dst src -> piecewise dst src ghosts ts ->
  good_launch (mk_launch ts (matvec_reqs lg dst src ghosts) [] None [] []).
Proof.
  intros Hc Hd Hp. split; [|apply (piecewise_non_interfering Hc Hd Hp)].
  intros c t st Hct Hst. cbn [ln_tasks] in Hct. destruct (Hp _ _ Hct) as (piece & ghost & E1 & E2 & Ac). destruct (Ac st Hst) as [[p [Hp1 Ep]] Rd].
  split.
  - rewrite Ep. cbn. exists (get_requirement lg dst READ_WRITE), piece. repeat split; auto.
  - intros l Hl. destruct (Rd l Hl) as [[q [Hq ->]]|[q [Hq ->]]]; cbn.
    + exists (get_requirement lg dst READ_WRITE), piece. repeat split; auto.
    + exists (mk_req (pv_region src) (pv_fid src) ghosts READ_ONLY), ghost. repeat split; auto.
Qed.
Lemma piecewise_effect dst src ghosts ts tr : constructed lg dst -> distinct dst src -> piecewise dst src ghosts ts -> interleave ts tr -> forall s,
  (forall c t piece p, nth_error ts c = Some t -> nth_error (pieces lg dst) c = Some piece -> In p piece ->
     run tr s (at_point dst p) = run t s (at_point dst p)) /\
  (forall l, (forall p, In p (is_points lg (pv_space dst)) -> l <> at_point dst p) -> run tr s l = s l).
Proof.
  intros Hc Hd Hp Hil s. assert (Hni := piecewise_non_interfering Hc Hd Hp). destruct (constructed_pieces Hlg Hc) as [Hn Hin]. split.
  - intros c t piece p Ht Hpc Hpp. apply (interleave_task _ _ loc_dec _ _ Hil Hni s c t _ Ht).
    intros j tj Hj Htj [st [Hst Hl]]. destruct (Hp _ _ Htj) as (pj & gj & Ej & _ & Aj). destruct (proj1 (Aj st Hst)) as [q [Hq Eq]].
    rewrite Eq in Hl. apply at_point_inj in Hl. subst q. apply Hj. apply (@NoDup_concat_nth _ (pieces lg dst) j c pj piece p); assumption.
  - intros l Hl. apply (interleave_frame _ _ loc_dec _ _ Hil). intros t Ht [st [Hst Hlt]]. apply In_nth_error in Ht. destruct Ht as [c Ht].
    destruct (Hp _ _ Ht) as (pc & gc & Ec & _ & Ac). destruct (proj1 (Ac st Hst)) as [q [Hq Eq]].
    apply (Hl q); [|rewrite <- Eq; symmetry; exact Hlt]. apply Hin. apply in_concat. exists pc. split; [eapply nth_error_In; exact Ec|exact Hq].
Qed.

(** ** The tasks act on their pieces *)
Lemma cpu_acts m dst src piece kpiece ghost t :
  (match m with COO m => Ok (coo_task A m dst src piece kpiece ghost) | CSR m => csr_task A m dst src piece ghost kpiece end) = Ok t ->
  t = map (acc A dst src) (entries_of m (piece, (kpiece, ghost))) /\ acts dst src piece ghost t.
Proof.
  intros H. assert (E : t = map (acc A dst src) (entries_of m (piece, (kpiece, ghost)))).
  { destruct m as [c|c].
    - injection H as <-. apply coo_task_entries.
    - assert (Hf : forall kp, In kp kpiece -> csr_find_row (cs_rowptr c) piece kp <> None).
      { intros kp Hk En. rewrite (csr_task_fails A _ dst src piece ghost _ _ Hk En) in H. discriminate. }
      rewrite (csr_task_entries A _ dst src _ ghost _ Hf) in H. injection H as <-. reflexivity. }
  split; [exact E|]. subst t. intros st Hst. apply in_map_iff in Hst. destruct Hst as [[[r c] e] [<- Hin]].
  apply entries_of_rows in Hin. cbn in Hin. destruct Hin as [Hr Hc]. cbn. split; [exists r; auto|].
  intros l [<-|[<-|[]]]; [left; exists r; auto|right; exists c; auto].
Qed.
Lemma coo_gpu_acts gs m dst src piece kpiece ghost t : coo_gpu_task A gs m dst src piece kpiece ghost = Ok t -> acts dst src piece ghost t.
Proof.
  unfold coo_gpu_task. destruct kpiece as [|k0 kl] eqn:Ek; [intros E; injection E as <-; intros st []|]. rewrite <- Ek.
  destruct (coo_gpu_legal m piece kpiece ghost) eqn:El; [|discriminate]. intros E. injection E as <-.
  unfold coo_gpu_legal in El. rewrite !andb_true_iff in El. destruct El as [[_ El] _]. rewrite forallb_forall in El.
  intros st Hst. apply in_flat_map in Hst. destruct Hst as [p [Hp Hst]]. unfold coo_gpu_row in Hst.
  destruct (filter _ kpiece) as [|k1 ks] eqn:Ef; [destruct Hst|]. rewrite <- Ef in Hst. destruct Hst as [<-|[]]. cbn [tgt rds]. split; [exists p; auto|].
  intros l [<-|Hl]; [left; exists p; auto|right]. apply in_map_iff in Hl. destruct Hl as [kp [<- Hk]]. apply filter_In in Hk.
  exists (co_col m kp). split; [|reflexivity]. destruct Hk as [Hk _]. apply El in Hk. apply andb_true_iff in Hk. apply mem_spec. apply Hk.
Qed.
Lemma csr_gpu_acts gs m dst src piece kpiece ghost t : csr_gpu_task A gs m dst src piece kpiece ghost = Ok t -> acts dst src piece ghost t.
Proof.
  intros H. apply oassert_ok in H. destruct H as [_ H]. destruct piece as [|p0 pl] eqn:Ep; [injection H as <-; intros st []|]. rewrite <- Ep in *.
  destruct (csr_gpu_legal m piece kpiece ghost) eqn:El; [|discriminate]. injection H as <-.
  unfold csr_gpu_legal in El. rewrite !andb_true_iff in El. destruct El as [_ El]. rewrite forallb_forall in El.
  intros st Hst. apply in_map_iff in Hst. destruct Hst as [p [<- Hp]]. cbn [tgt rds csr_gpu_row]. split; [exists p; auto|].
  intros l Hl. right. apply in_map_iff in Hl. destruct Hl as [kp [<- Hk]]. apply filter_In in Hk. destruct Hk as [Hk _].
  exists (cs_col m kp). split; [|reflexivity]. apply mem_spec. apply El. exact Hk.
Qed.

(** ** What the GPU tasks compute *)
Lemma products_map (entry : point -> T) (kps : list point) (x : point -> T) : products A entry kps (map x kps) = map (fun kp => amul A (entry kp) (x kp)) kps.
Proof. unfold products. induction kps as [|k kps IH]; [reflexivity|]. cbn [map combine fst snd]. f_equal. exact IH. Qed.
(** one step per element, reading the destination only at its own element *)
Lemma run_rows dst src (f : point -> list (step loc T)) piece : NoDup piece -> distinct dst src ->
  (forall p st, In st (f p) -> tgt st = at_point dst p /\ forall l, In l (rds st) -> l = at_point dst p \/ exists q, l = at_point src q) ->
  forall s p, In p piece -> run (flat_map f piece) s (at_point dst p) = run (f p) s (at_point dst p).
Proof.
  intros Hnd Hd Hf. induction piece as [|a piece IH]; intros s p Hp; [destruct Hp|]. inversion Hnd as [|? ? Ha Hn']; subst.
  cbn [flat_map]. rewrite run_app.
  assert (Hw : forall q l, (forall x, In x q -> x <> a) -> writes (flat_map f q) l -> forall st, In st (f a) -> l <> tgt st).
  { intros q l Hq [st [Hin Ht]] st' Hst' ->. apply in_flat_map in Hin. destruct Hin as [x [Hx Hst]].
    rewrite (proj1 (Hf _ _ Hst)), (proj1 (Hf _ _ Hst')) in Ht. apply at_point_inj in Ht. apply (Hq x Hx Ht). }
  destruct (point_eq_dec p a) as [->|Hne].
  - apply run_frame. intros [st [Hin Ht]]. apply in_flat_map in Hin. destruct Hin as [x [Hx Hst]].
    rewrite (proj1 (Hf _ _ Hst)) in Ht. apply at_point_inj in Ht. subst x. contradiction.
  - destruct Hp as [->|Hp]; [congruence|]. rewrite (IH Hn' (run (f a) s) p Hp).
    (* the steps of [a] change only dst a, which the steps of [p] do not read *)
    assert (G : forall st l, In l (rds st) -> In st (f p) -> run (f a) s l = s l).
    { intros st l Hl Hst. apply run_frame. intros [st' [Hin Ht]]. rewrite (proj1 (Hf _ _ Hin)) in Ht.
      destruct (proj2 (Hf _ _ Hst) l Hl) as [->|[q ->]]; [apply at_point_inj in Ht; congruence|apply (Hd a q Ht)]. }
    assert (G0 : run (f a) s (at_point dst p) = s (at_point dst p)).
    { apply run_frame. intros [st' [Hin Ht]]. rewrite (proj1 (Hf _ _ Hin)) in Ht. apply at_point_inj in Ht. congruence. }
    clear IH. assert (Hfp : forall st, In st (f p) -> tgt st = at_point dst p /\ forall l, In l (rds st) -> l = at_point dst p \/ exists q, l = at_point src q) by (intros st; apply Hf).
    assert (Gs : forall q, run (f a) s (at_point src q) = s (at_point src q)).
    { intros q. apply run_frame. intros [st' [Hin Ht]]. rewrite (proj1 (Hf _ _ Hin)) in Ht. apply (Hd a q Ht). }
    clear G. revert G0 Gs Hfp. generalize (run (f a) s) as s1. intros s1. revert s s1. induction (f p) as [|st t IHt]; intros s s1 G0 Gs Hfp; [exact G0|].
    cbn [Sched.run fold_left]. change (fold_left (exec loc_dec) t (exec loc_dec s1 st) (at_point dst p)) with (run t (exec loc_dec s1 st) (at_point dst p)).
    change (fold_left (exec loc_dec) t (exec loc_dec s st) (at_point dst p)) with (run t (exec loc_dec s st) (at_point dst p)).
    destruct (Hfp st (or_introl eq_refl)) as [Et Er].
    apply IHt.
    + unfold exec. rewrite Et, !upd_same. f_equal. apply map_ext_in. intros l Hl. destruct (Er l Hl) as [->|[q ->]]; [exact G0|apply Gs].
    + intros q. unfold exec. rewrite Et, !upd_other by (intros E; apply (Hd p q); symmetry; exact E). apply Gs.
    + intros st' Hst'. apply Hfp. right. exact Hst'.
Qed.
End Piecewise.

(** ** The mapped product *)
(** does the GPU variant of the task for one piece pass its assertion and make a legal call? *)
Definition gpu_legal {T} (m : matrix T) (piece kpiece ghost : list point) : bool :=
  match m with
  | COO m => is_nil kpiece || coo_gpu_legal m piece kpiece ghost
  | CSR m => dom_dense (map coord piece) && (is_nil piece || csr_gpu_legal m piece kpiece ghost)
  end.
Definition is_csr {T} (m : matrix T) : bool := match m with CSR _ => true | COO _ => false end.

Section Mapped.
Variable T : Type.
Variable A : arith T.
Variable lg : legion.
Hypothesis Hlg : legion_ok lg.
Variable mp : mapping T.
Notation run := (run loc_dec).

(** what a mapped task leaves in element [p] of the destination *)
Definition mapped_value (st : ist) (j c : nat) (m : matrix T) (x : point -> T) (y : T) (ks : list point) (p : point) : T :=
  if on_gpu mp st j c
  then let sum := gpu_sum mp st j c p (map (fun kp => amul A (value m kp) (x (PropsMatrix.column m kp))) ks) in
       if is_csr m then sum else if is_nil ks then y else aadd A y sum
  else add_products A m x y ks.

Lemma filter_sub {X} (f g : X -> bool) l : (forall x, In x l -> f x = true -> g x = true) -> filter f (filter g l) = filter f l.
Proof.
  induction l as [|a l IH]; intros H; [reflexivity|]. cbn [filter]. destruct (g a) eqn:Eg; cbn [filter].
  - rewrite IH; [reflexivity|]. intros x Hx. apply H. right; exact Hx.
  - destruct (f a) eqn:Ef; [rewrite (H a (or_introl eq_refl) Ef) in Eg; discriminate|]. apply IH. intros x Hx. apply H. right; exact Hx.
Qed.
Lemma in_row_piece (m : matrix T) piece p kp : In p piece -> in_row m p kp = true -> kernel_in_piece m piece kp = true.
Proof.
  intros Hp H. destruct m as [c|c]; cbn in *.
  - destruct (point_eq_dec (co_row c kp) p) as [E|]; [|discriminate]. apply mem_spec. rewrite E. exact Hp.
  - apply existsb_exists. exists p. auto.
Qed.
(** a legal GPU task sees every stored entry of its rows *)
Lemma gpu_row_entries (m : matrix T) space piece p : In p piece ->
  let kpiece := filter (kernel_in_piece m piece) (kpts m) in
  let ghost := filter (fun q => mem q (map (kcol m) kpiece)) (is_points lg space) in
  gpu_legal m piece kpiece ghost = true -> filter (in_row m p) kpiece = row_entries lg m space p.
Proof.
  intros Hp. cbv zeta. set (kpiece := filter (kernel_in_piece m piece) (kpts m)). intros Hl.
  assert (Hcol : forall kp, In kp kpiece -> mem (PropsMatrix.column m kp) (is_points lg space) = true).
  { intros kp Hk. destruct m as [c|c]; cbn [gpu_legal PropsMatrix.column kcol] in *.
    - apply orb_true_iff in Hl. destruct Hl as [Hl|Hl]; [destruct kpiece; [destruct Hk|discriminate]|].
      unfold coo_gpu_legal in Hl. rewrite !andb_true_iff in Hl. destruct Hl as [[_ Hl] _]. rewrite forallb_forall in Hl. specialize (Hl kp Hk).
      apply andb_true_iff in Hl. destruct Hl as [_ Hl]. apply mem_spec in Hl. apply filter_In in Hl. apply mem_spec. apply Hl.
    - apply andb_true_iff in Hl. destruct Hl as [_ Hl]. apply orb_true_iff in Hl. destruct Hl as [Hl|Hl]; [destruct piece; [destruct Hp|discriminate]|].
      unfold csr_gpu_legal in Hl. rewrite !andb_true_iff in Hl. destruct Hl as [_ Hl]. rewrite forallb_forall in Hl. specialize (Hl kp Hk).
      apply mem_spec in Hl. apply filter_In in Hl. apply mem_spec. apply Hl. }
  unfold row_entries. replace (positions m) with (kpts m) by (destruct m; reflexivity). unfold kpiece in *.
  rewrite filter_sub by (intros kp _ H; apply (in_row_piece m piece p kp Hp H)).
  apply filter_ext_in2. intros kp Hk. destruct (in_row m p kp) eqn:Er; [|reflexivity]. cbn [andb]. symmetry. apply Hcol.
  apply filter_In. split; [exact Hk|apply (in_row_piece m piece p kp Hp Er)].
Qed.

Lemma coo_gpu_value gs (m : coo T) dst src piece kpiece ghost t s p : NoDup piece -> distinct dst src -> In p piece ->
  coo_gpu_task A gs m dst src piece kpiece ghost = Ok t ->
  let ks := filter (in_row (COO m) p) kpiece in
  run t s (at_point dst p) = if is_nil ks then s (at_point dst p)
    else aadd A (s (at_point dst p)) (gs p (map (fun kp => amul A (co_entry m kp) (s (at_point src (co_col m kp)))) ks)).
Proof.
  intros Hnd Hd Hp H. cbv zeta. destruct (is_nil kpiece) eqn:En.
  { destruct kpiece; [|discriminate]. cbn in H. injection H as <-. reflexivity. }
  assert (Et : t = flat_map (coo_gpu_row A gs m dst src kpiece) piece).
  { unfold coo_gpu_task in H. destruct kpiece as [|k0 kl]; [discriminate|]. destruct (coo_gpu_legal m piece (k0 :: kl) ghost); [|discriminate]. congruence. }
  subst t. rewrite (@run_rows T dst src (coo_gpu_row A gs m dst src kpiece) piece Hnd Hd); [|
    intros q st Hst; unfold coo_gpu_row in Hst; destruct (filter _ kpiece) as [|k1 ks1] eqn:Ef; [destruct Hst|]; destruct Hst as [<-|[]];
      cbn [tgt rds]; split; [reflexivity|]; intros l [<-|Hl]; [left; reflexivity|right; apply in_map_iff in Hl; destruct Hl as [kp [<- _]]; eexists; reflexivity]
    |exact Hp].
  unfold coo_gpu_row. change (fun kp => if point_eq_dec (co_row m kp) p then true else false) with (in_row (COO m) p).
  destruct (filter (in_row (COO m) p) kpiece) as [|k1 ks'] eqn:Ef; [reflexivity|]. cbn [is_nil]. rewrite <- Ef.
  unfold Sched.run. cbn [fold_left]. unfold exec. cbn [tgt rds fn]. rewrite upd_same. cbn [map].
  rewrite map_map. rewrite products_map. cbn [map]. congruence.
Qed.
Lemma flat_map_single {X Y} (f : X -> Y) l : map f l = flat_map (fun x => [f x]) l.
Proof. induction l as [|a l IH]; [reflexivity|]. cbn. rewrite IH. reflexivity. Qed.
Lemma csr_gpu_value gs (m : csr T) dst src piece kpiece ghost t s p : NoDup piece -> distinct dst src -> In p piece ->
  csr_gpu_task A gs m dst src piece kpiece ghost = Ok t ->
  run t s (at_point dst p) = gs p (map (fun kp => amul A (cs_entry m kp) (s (at_point src (cs_col m kp)))) (filter (in_row (CSR m) p) kpiece)).
Proof.
  intros Hnd Hd Hp H. apply oassert_ok in H. destruct H as [_ H]. destruct piece as [|p0 pl] eqn:Ep; [destruct Hp|]. rewrite <- Ep in *.
  destruct (csr_gpu_legal m piece kpiece ghost); [|discriminate]. injection H as <-. rewrite flat_map_single.
  rewrite (@run_rows T dst src (fun q => [csr_gpu_row A gs m dst src kpiece q]) piece Hnd Hd); [|
    intros q st [<-|[]]; cbn [tgt rds csr_gpu_row]; split; [reflexivity|]; intros l Hl; right; apply in_map_iff in Hl; destruct Hl as [kp [<- _]]; eexists; reflexivity
    |exact Hp].
  unfold Sched.run. cbn [fold_left]. unfold exec. cbn [tgt rds fn csr_gpu_row]. rewrite upd_same. rewrite map_map, products_map. reflexivity.
Qed.

(** the legality condition is exactly what makes a GPU task go through *)
Lemma gpu_task_ok (m : matrix T) gs dst src piece kpiece ghost :
  (exists t, (match m with COO m => coo_gpu_task A gs m dst src piece kpiece ghost | CSR m => csr_gpu_task A gs m dst src piece kpiece ghost end) = Ok t)
  <-> gpu_legal m piece kpiece ghost = true.
Proof.
  destruct m as [m|m]; cbn [gpu_legal].
  - unfold coo_gpu_task. destruct kpiece as [|k ks]; [cbn; split; [reflexivity|eexists; reflexivity]|]. cbn [is_nil orb].
    destruct (coo_gpu_legal m piece (k :: ks) ghost); split; try reflexivity; try discriminate; [eexists; reflexivity|intros [t E]; discriminate].
  - unfold csr_gpu_task, oassert. destruct (dom_dense (map coord piece)); cbn [andb]; [|split; [intros [t E]; discriminate|discriminate]].
    destruct piece as [|p ps]; [cbn; split; [reflexivity|eexists; reflexivity]|]. cbn [is_nil orb].
    destruct (csr_gpu_legal m (p :: ps) kpiece ghost); split; try reflexivity; try discriminate; [eexists; reflexivity|intros [t E]; discriminate].
Qed.

Lemma sequence_nth {X} (l : list (outcome X)) xs c : sequence l = Ok xs -> forall o, nth_error l c = Some o -> exists x, o = Ok x /\ nth_error xs c = Some x.
Proof.
  revert xs c. induction l as [|o l IH]; intros xs c H o' Ho; [destruct c; discriminate|]. cbn in H.
  destruct o as [x| | |]; try discriminate. cbn in H. destruct (sequence l) as [ys| | |] eqn:E; try discriminate. cbn in H. injection H as <-.
  destruct c as [|c]; cbn in *; [injection Ho as <-; eauto|]. apply (IH ys c eq_refl o' Ho).
Qed.
Lemma sequence_length {X} (l : list (outcome X)) xs : sequence l = Ok xs -> length xs = length l.
Proof.
  revert xs. induction l as [|o l IH]; intros xs H; cbn in H; [injection H as <-; reflexivity|].
  destruct o as [x| | |]; try discriminate. cbn in H. destruct (sequence l) as [ys| | |] eqn:E; try discriminate. cbn in H. injection H as <-.
  cbn. f_equal. apply IH. reflexivity.
Qed.
Lemma sequence_all {X} (l : list (outcome X)) : (forall o, In o l -> exists x, o = Ok x) -> exists xs, sequence l = Ok xs.
Proof.
  induction l as [|o l IH]; intros H; [exists []; reflexivity|]. destruct (H o (or_introl eq_refl)) as [x ->]. destruct IH as [xs E]; [intros o' Ho'; apply H; right; exact Ho'|].
  exists (x :: xs). cbn. rewrite E. reflexivity.
Qed.

Notation ghosts_of m src kps := (domain_from_kernel lg m (pv_space src) kps).
(** every point task that is mapped to a GPU makes a legal call *)
Definition gpu_ready (st : ist) (j : nat) (m : matrix T) (dst src : pvec) (kps : list (list point)) : Prop :=
  forall c piece kpiece ghost, nth_error (pieces lg dst) c = Some piece -> nth_error kps c = Some kpiece ->
    nth_error (ghosts_of m src kps) c = Some ghost -> on_gpu mp st j c = true -> gpu_legal m piece kpiece ghost = true.

Section One.
Variables (st0 : ist) (j : nat) (m : matrix T) (dst src : pvec) (kps : list (list point)).
Hypothesis Hc : constructed lg dst.
Hypothesis Hok : matrix_ok lg m.
Hypothesis Hk : kernel_from_range lg m (pv_part dst) = Ok kps.
Hypothesis Hd : pv_region dst <> pv_region src \/ pv_fid dst <> pv_fid src.

Lemma derived_nth c piece : nth_error (pieces lg dst) c = Some piece ->
  nth_error kps c = Some (filter (kernel_in_piece m piece) (kpts m)) /\
  nth_error (ghosts_of m src kps) c = Some (filter (fun p => mem p (map (kcol m) (filter (kernel_in_piece m piece) (kpts m)))) (is_points lg (pv_space src))).
Proof.
  intros Hp. destruct (kernel_from_range_pieces _ _ _ Hk) as [Ek _].
  assert (Hkc : nth_error kps c = Some (filter (kernel_in_piece m piece) (kpts m))).
  { rewrite Ek, nth_error_map_some. unfold pieces in Hp. rewrite Hp. reflexivity. }
  split; [exact Hkc|]. rewrite domain_from_kernel_eq, nth_error_map_some, Hkc. reflexivity.
Qed.
Lemma kps_length : length kps = length (pieces lg dst).
Proof. destruct (kernel_from_range_pieces _ _ _ Hk) as [-> _]. apply map_length. Qed.
Lemma ghosts_length : length (ghosts_of m src kps) = length (pieces lg dst).
Proof. rewrite domain_from_kernel_eq, map_length. apply kps_length. Qed.
Lemma one_distinct : distinct dst src.
Proof. intros p q E. unfold at_point in E. injection E as E1 E2 E3. destruct Hd; congruence. Qed.

(** the CPU task of a piece is accepted *)
Lemma cpu_task_accepts c piece : nth_error (pieces lg dst) c = Some piece ->
  forall kpiece ghost, nth_error kps c = Some kpiece -> nth_error (ghosts_of m src kps) c = Some ghost ->
  exists t, (match m with COO m => Ok (coo_task A m dst src piece kpiece ghost) | CSR m => csr_task A m dst src piece ghost kpiece end) = Ok t.
Proof.
  intros Hp kpiece ghost E1 E2. destruct (derived_nth _ Hp) as [E3 E4]. rewrite E1 in E3. injection E3 as ->. destruct m as [c0|c0]; [eexists; reflexivity|].
  eexists. apply csr_task_entries. intros kp Hin. apply filter_In in Hin. destruct Hin as [_ Hin]. cbn in Hin. apply existsb_exists in Hin.
  destruct Hin as [r [Hr Hcr]]. intros E. assert (H := csr_find_row_spec (cs_rowptr c0) piece kp). rewrite E in H. rewrite (H r Hr) in Hcr. discriminate.
Qed.
Lemma combine_seq_index X (l : list X) k i : nth_error (combine (seq k (length l)) l) i = option_map (fun x => (k + i, x)) (nth_error l i).
Proof.
  revert k i. induction l as [|a l IH]; intros k i; [destruct i; reflexivity|]. destruct i as [|i]; cbn; [rewrite Nat.add_0_r; reflexivity|].
  rewrite IH. rewrite Nat.add_succ_r. reflexivity.
Qed.
Definition inputs := combine (pieces lg dst) (combine kps (ghosts_of m src kps)).
Lemma inputs_length : length inputs = length (pieces lg dst).
Proof. unfold inputs. rewrite !combine_length, kps_length, ghosts_length. lia. Qed.
Lemma mapped_input c x : nth_error (combine (seq 0 (length (pieces lg dst))) inputs) c = Some x ->
  exists piece kpiece ghost, x = (c, (piece, (kpiece, ghost))) /\ nth_error (pieces lg dst) c = Some piece /\ nth_error kps c = Some kpiece /\
    nth_error (ghosts_of m src kps) c = Some ghost.
Proof.
  rewrite <- inputs_length, combine_seq_index. destruct (nth_error inputs c) as [[piece [kpiece ghost]]|] eqn:E; [|discriminate]. intros H. injection H as <-.
  unfold inputs in E. rewrite !combine_nth in E. destruct (nth_error (pieces lg dst) c) as [p0|]; [|discriminate]. destruct (nth_error kps c) as [k0|]; [|discriminate].
  destruct (nth_error _ c) as [g0|] in E |- *; [|discriminate]. injection E as -> -> ->. exists piece, kpiece, ghost. repeat split; reflexivity.
Qed.

Theorem mapped_matvec_accepts : gpu_ready st0 j m dst src kps ->
  exists ln, mapped_matvec A lg mp st0 j m dst src kps (ghosts_of m src kps) = Ok ln.
Proof.
  intros Hg. unfold mapped_matvec. rewrite kps_length, ghosts_length, !Nat.eqb_refl.
  replace (match m with COO _ => true | CSR c => part_parent lg (pv_part dst) =? cs_rows c end) with true
    by (destruct m; [reflexivity|destruct (kernel_from_range_pieces _ _ _ Hk) as [_ Hrow]; rewrite Hrow, Nat.eqb_refl; reflexivity]).
  cbn [andb]. assert (Hs : exists ts, mapped_tasks A lg mp st0 j m dst src kps (ghosts_of m src kps) = Ok ts).
  { unfold mapped_tasks. apply sequence_all. intros o Ho. apply in_map_iff in Ho. destruct Ho as [x [<- Hx]]. apply In_nth_error in Hx. destruct Hx as [c Hx].
    destruct (mapped_input _ Hx) as (piece & kpiece & ghost & -> & E1 & E2 & E3). unfold mapped_task. destruct (on_gpu mp st0 j c) eqn:Eg.
    - apply gpu_task_ok. apply (Hg c); assumption.
    - apply (cpu_task_accepts _ E1 E2 E3). }
  destruct Hs as [ts ->]. cbn [obind]. unfold submit.
  assert (E : interfering (matvec_reqs lg dst src (ghosts_of m src kps)) = false).
  { cbn. unfold reqs_alias. cbn. destruct Hd as [Hd1|Hd1]; apply Nat.eqb_neq in Hd1; rewrite Hd1, ?andb_false_r; reflexivity. }
  cbn [ln_reqs]. rewrite E. eexists; reflexivity.
Qed.
(** and only then *)
Theorem mapped_matvec_needs ln : mapped_matvec A lg mp st0 j m dst src kps (ghosts_of m src kps) = Ok ln -> gpu_ready st0 j m dst src kps.
Proof.
  unfold mapped_matvec. destruct (_ && _ && _) eqn:E0; [|discriminate]. intros H.
  destruct (mapped_tasks A lg mp st0 j m dst src kps (ghosts_of m src kps)) as [ts| | |] eqn:E; try discriminate. unfold mapped_tasks in E.
  intros c piece kpiece ghost E1 E2 E3 Eg.
  assert (Hx : nth_error (combine (seq 0 (length (pieces lg dst))) inputs) c = Some (c, (piece, (kpiece, ghost)))).
  { rewrite <- inputs_length, combine_seq_index. unfold inputs. rewrite !combine_nth, E1, E2, E3. reflexivity. }
  destruct (@sequence_nth _ _ _ c E (mapped_task A mp st0 j m dst src c piece kpiece ghost)) as [t [Et _]].
  { fold inputs. rewrite nth_error_map_some, Hx. reflexivity. }
  unfold mapped_task in Et. rewrite Eg in Et. apply (gpu_task_ok m (gpu_sum mp st0 j c) dst src). eexists. exact Et.
Qed.

Theorem mapped_matvec_facts ln : mapped_matvec A lg mp st0 j m dst src kps (ghosts_of m src kps) = Ok ln ->
  good_launch ln /\ forall tr, interleave (ln_tasks ln) tr -> forall s,
  (forall c piece p, nth_error (pieces lg dst) c = Some piece -> In p piece ->
     run tr s (at_point dst p) = mapped_value st0 j c m (fun q => s (at_point src q)) (s (at_point dst p)) (row_entries lg m (pv_space src) p) p) /\
  (forall l, (forall p, In p (is_points lg (pv_space dst)) -> l <> at_point dst p) -> run tr s l = s l).
Proof.
  intros H. assert (Hg := mapped_matvec_needs H). unfold mapped_matvec in H. destruct (_ && _ && _) eqn:E0; [|discriminate].
  destruct (mapped_tasks A lg mp st0 j m dst src kps (ghosts_of m src kps)) as [ts| | |] eqn:E; try discriminate. cbn [obind] in H.
  apply submit_ok in H. destruct H as [-> _]. unfold mapped_tasks in E. fold inputs in E. assert (Hdist := one_distinct).
  assert (Hts : forall c t, nth_error ts c = Some t -> exists piece kpiece ghost, nth_error (pieces lg dst) c = Some piece /\ nth_error kps c = Some kpiece /\
    nth_error (ghosts_of m src kps) c = Some ghost /\ mapped_task A mp st0 j m dst src c piece kpiece ghost = Ok t).
  { intros c t Ht. assert (Hlt : c < length (combine (seq 0 (length (pieces lg dst))) inputs)).
    { assert (c < length ts) by (apply nth_error_Some; congruence). rewrite (sequence_length _ E), map_length in H. exact H. }
    apply nth_error_Some in Hlt. destruct (nth_error (combine (seq 0 (length (pieces lg dst))) inputs) c) as [x|] eqn:Ex; [|congruence].
    destruct (mapped_input _ Ex) as (piece & kpiece & ghost & -> & E1 & E2 & E3).
    destruct (@sequence_nth _ _ _ c E (mapped_task A mp st0 j m dst src c piece kpiece ghost)) as [t' [Et Et']].
    { rewrite nth_error_map_some, Ex. reflexivity. }
    rewrite Ht in Et'. injection Et' as <-. exists piece, kpiece, ghost. auto. }
  assert (Hpw : piecewise lg dst src (ghosts_of m src kps) ts).
  { intros c t Ht. destruct (Hts c t Ht) as (piece & kpiece & ghost & E1 & E2 & E3 & Et). exists piece, ghost. split; [exact E1|]. split; [exact E3|].
    unfold mapped_task in Et. destruct (on_gpu mp st0 j c).
    - destruct m as [m0|m0]; [apply (coo_gpu_acts A _ _ _ _ _ _ _ Et)|apply (csr_gpu_acts A _ _ _ _ _ _ _ Et)].
    - apply (cpu_acts A m dst src piece kpiece ghost Et). }
  split; [apply (piecewise_good Hlg Hc Hdist Hpw)|]. intros tr Hil s. cbn [ln_tasks] in Hil.
  destruct (piecewise_effect Hlg Hc Hdist Hpw Hil s) as [U1 U2]. split; [|exact U2]. intros c piece p E1 Hp.
  assert (Hlt : c < length ts).
  { rewrite (sequence_length _ E), map_length, combine_length, seq_length, inputs_length, Nat.min_id. apply nth_error_Some. congruence. }
  apply nth_error_Some in Hlt. destruct (nth_error ts c) as [t|] eqn:Et; [|congruence]. rewrite (U1 c t piece p Et E1 Hp).
  destruct (Hts c t Et) as (piece' & kpiece & ghost & E1' & E2 & E3 & Em). rewrite E1 in E1'. injection E1' as <-.
  destruct (derived_nth c E1) as [D2 D3]. rewrite E2 in D2. rewrite E3 in D3. injection D2 as Dk. injection D3 as Dg.
  destruct Hlg as [_ Hq]. destruct (Hq (pv_part dst) piece) as [Hnp Hinc]; [eapply nth_error_In; exact E1|].
  unfold mapped_task in Em. unfold mapped_value. destruct (on_gpu mp st0 j c) eqn:Eg.
  - assert (Hleg := Hg c piece kpiece ghost E1 E2 E3 Eg). rewrite Dk, Dg in Hleg.
    assert (Hre := @gpu_row_entries m (pv_space src) piece p Hp Hleg). rewrite <- Dk in Hre.
    destruct m as [m0|m0]; cbn [is_csr value PropsMatrix.column].
    + rewrite (@coo_gpu_value _ _ _ _ _ _ _ _ s p Hnp Hdist Hp Em). rewrite Hre. reflexivity.
    + rewrite (@csr_gpu_value _ _ _ _ _ _ _ _ s p Hnp Hdist Hp Em). rewrite Hre. reflexivity.
  - destruct (cpu_acts A m dst src piece kpiece ghost Em) as [-> _]. rewrite run_accumulate by exact Hdist.
    rewrite Dk, Dg. rewrite (@derived_entries T lg Hlg m (pv_space src) (part_parent lg (pv_part dst)) piece p Hok); [| |exact Hinc|exact Hnp|exact Hp].
    + unfold row_entries. apply accumulate_entries; [exact Hlg|]. destruct m; [exact I|].
      destruct (kernel_from_range_pieces _ _ _ Hk) as [_ Hrow]. rewrite <- Hrow. apply Hinc. exact Hp.
    + destruct m; [exact I|]. destruct (kernel_from_range_pieces _ _ _ Hk) as [_ Hrow]. symmetry. exact Hrow.
Qed.
End One.
End Mapped.
