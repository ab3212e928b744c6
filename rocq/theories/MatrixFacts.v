(** MatrixFacts: effect of the matvec launches and of the derived partitions. *)
From Verif Require Import Base Index Outcome Sched Async Arith Launch Vector PartitionSpec VectorFacts LaunchFacts Matrix MatrixSpec.
Set Implicit Arguments.

Section Facts.
Variable T : Type.
Variable A : arith T.
Variable lg : legion.
Hypothesis Hlg : legion_ok lg.
Notation run := (run loc_dec).
Notation triple := (point * point * T)%type.

Definition acc (dst src : pvec) (t : triple) : step loc T :=
  let '(r, c, e) := t in accumulate_step A dst src r c e.

Lemma acc_tgt dst src t : tgt (acc dst src t) = at_point dst (fst (fst t)).
Proof. destruct t as [[r c] e]. reflexivity. Qed.

Definition distinct (dst src : pvec) : Prop := forall p q, at_point dst p <> at_point src q.

Lemma run_accumulate dst src ts : distinct dst src -> forall s p,
  run (map (acc dst src) ts) s (at_point dst p) =
  accumulate_row A (fun c => s (at_point src c)) (s (at_point dst p))
    (filter (fun t => if point_eq_dec (fst (fst t)) p then true else false) ts).
Proof.
  intros Hd. induction ts as [|t ts IH]; intros s p; [reflexivity|].
  cbn [map]. change (run (acc dst src t :: map (acc dst src) ts) s) with (run (map (acc dst src) ts) (exec loc_dec s (acc dst src t))).
  rewrite IH. destruct t as [[r c] e]. cbn [filter fst snd].
  assert (Hsrc : forall q, exec loc_dec s (acc dst src (r, c, e)) (at_point src q) = s (at_point src q)).
  { intros q. unfold exec. apply upd_other. intros E. apply (Hd r q). symmetry. exact E. }
  unfold accumulate_row.
  assert (Hext : forall l d, fold_left (fun (acc0 : T) (t : triple) => let '(_, c0, e0) := t in aadd A acc0 (amul A e0 (exec loc_dec s (acc dst src (r, c, e)) (at_point src c0)))) l d
     = fold_left (fun (acc0 : T) (t : triple) => let '(_, c0, e0) := t in aadd A acc0 (amul A e0 (s (at_point src c0)))) l d).
  { intros l d. apply fold_left_ext. intros x [[r0 c0] e0] _. rewrite Hsrc. reflexivity. }
  rewrite Hext. destruct (point_eq_dec r p) as [->|Hne].
  - cbn [fold_left]. f_equal. unfold exec, acc, accumulate_step. cbn [tgt rds fn map]. rewrite upd_same. reflexivity.
  - f_equal. unfold exec, acc, accumulate_step. cbn [tgt]. apply upd_other. unfold at_point. congruence.
Qed.

Definition tasks_of (dst src : pvec) (ents : list (list triple)) : list (list (step loc T)) :=
  map (map (acc dst src)) ents.

(** Tasks that accumulate into disjoint row pieces. *)
Definition rows_within (dst : pvec) (ents : list (list triple)) : Prop :=
  Forall2 (fun piece es => forall t, In t es -> In (fst (fst t)) piece) (pieces lg dst) ents.

Lemma tasks_non_interfering dst src ents : constructed lg dst -> distinct dst src -> rows_within dst ents ->
  non_interfering (tasks_of dst src ents).
Proof.
  intros Hc Hd Hw i j ti tj l Hij Hi Hj [st [Hst Ht]].
  destruct (constructed_pieces Hlg Hc) as [Hn _].
  unfold tasks_of in Hi, Hj. rewrite nth_error_map_some in Hi, Hj.
  destruct (nth_error ents i) as [ei|] eqn:Ei; [|discriminate]. injection Hi as <-.
  destruct (nth_error ents j) as [ej|] eqn:Ej; [|discriminate]. injection Hj as <-.
  destruct (nth_error_Forall2_r Hw i Ei) as [pi [Hpi Hiw]]. destruct (nth_error_Forall2_r Hw j Ej) as [pj [Hpj Hjw]].
  apply in_map_iff in Hst. destruct Hst as [[[r c] e] [<- Hin]]. cbn in Ht. subst l.
  specialize (Hiw _ Hin). cbn in Hiw.
  assert (K : forall t, In t ej -> at_point dst (fst (fst t)) <> at_point dst r).
  { intros t Htj E. apply at_point_inj in E. specialize (Hjw t Htj). rewrite E in Hjw.
    apply Hij. apply (@NoDup_concat_nth _ (pieces lg dst) i j pi pj r); assumption. }
  split; intros [st [Hst Hl]]; apply in_map_iff in Hst; destruct Hst as [t [<- Htj]].
  - rewrite acc_tgt in Hl. apply (K t Htj Hl).
  - specialize (K t Htj). destruct t as [[r' c'] e']. cbn in Hl. destruct Hl as [E|[E|[]]].
    + cbn in K. contradiction.
    + apply (Hd r c'). symmetry. exact E.
Qed.

Lemma tasks_effect dst src ents tr : constructed lg dst -> distinct dst src -> rows_within dst ents ->
  interleave (tasks_of dst src ents) tr -> forall s,
  (forall c es p, nth_error ents c = Some es -> (exists piece, nth_error (pieces lg dst) c = Some piece /\ In p piece) ->
     run tr s (at_point dst p) = accumulate_row A (fun q => s (at_point src q)) (s (at_point dst p))
       (filter (fun t => if point_eq_dec (fst (fst t)) p then true else false) es)) /\
  (forall l, (forall p, In p (is_points lg (pv_space dst)) -> l <> at_point dst p) -> run tr s l = s l).
Proof.
  intros Hc Hd Hw Hil s. assert (Hni := tasks_non_interfering Hc Hd Hw).
  destruct (constructed_pieces Hlg Hc) as [Hn Hin]. split.
  - intros c es p Hes [piece [Hp Hpp]].
    assert (Ht : nth_error (tasks_of dst src ents) c = Some (map (acc dst src) es)).
    { unfold tasks_of. rewrite nth_error_map_some, Hes. reflexivity. }
    rewrite (interleave_task _ _ loc_dec _ _ Hil Hni s c _ (at_point dst p) Ht).
    + apply run_accumulate. exact Hd.
    + intros j tj Hj Htj [st [Hst Hl]]. unfold tasks_of in Htj. rewrite nth_error_map_some in Htj.
      destruct (nth_error ents j) as [ej|] eqn:Ej; [|discriminate]. injection Htj as <-.
      apply in_map_iff in Hst. destruct Hst as [t [<- Htj]]. rewrite acc_tgt in Hl. apply at_point_inj in Hl.
      destruct (nth_error_Forall2_r Hw j Ej) as [pj [Hpj Hjw]]. specialize (Hjw t Htj). rewrite Hl in Hjw.
      apply Hj. apply (@NoDup_concat_nth _ (pieces lg dst) j c pj piece p); assumption.
  - intros l Hl. apply (interleave_frame _ _ loc_dec _ _ Hil). intros t Ht [st [Hst Hlt]].
    unfold tasks_of in Ht. apply in_map_iff in Ht. destruct Ht as [es [<- Hes]].
    apply in_map_iff in Hst. destruct Hst as [t [<- Htj]]. rewrite acc_tgt in Hlt.
    apply In_nth_error in Hes. destruct Hes as [c Hes]. destruct (nth_error_Forall2_r Hw c Hes) as [pc [Hpc Hcw]].
    apply (Hl (fst (fst t))); [|symmetry; exact Hlt]. apply Hin. apply in_concat. exists pc.
    split; [eapply nth_error_In; exact Hpc|apply Hcw; exact Htj].
Qed.

(** ---- the triples a point task processes ---- *)
Definition coo_entries (m : coo T) (piece kpiece ghost : list point) : list triple :=
  flat_map (fun kp => if mem (co_col m kp) ghost && mem (co_row m kp) piece
                      then [(co_row m kp, co_col m kp, co_entry m kp)] else []) kpiece.
Lemma coo_task_entries m dst src piece kpiece ghost :
  coo_task A m dst src piece kpiece ghost = map (acc dst src) (coo_entries m piece kpiece ghost).
Proof.
  unfold coo_task, coo_entries. rewrite map_flat_map. rewrite !flat_map_concat_map. f_equal. apply map_ext.
  intros kp. destruct (mem (co_col m kp) ghost && mem (co_row m kp) piece); reflexivity.
Qed.
Lemma coo_entries_rows m piece kpiece ghost t : In t (coo_entries m piece kpiece ghost) ->
  In (fst (fst t)) piece /\ In (snd (fst t)) ghost.
Proof.
  intros H. apply in_flat_map in H. destruct H as [kp [_ H]].
  destruct (mem (co_col m kp) ghost && mem (co_row m kp) piece) eqn:E; [|destruct H].
  apply andb_true_iff in E. destruct E as [E1 E2]. destruct H as [<-|[]]. cbn. split; apply mem_spec; assumption.
Qed.

Definition csr_entries (m : csr T) (piece ghost kpiece : list point) : list triple :=
  flat_map (fun kp => match csr_find_row (cs_rowptr m) piece kp with
     | Some row => if mem (cs_col m kp) ghost && mem row piece then [(row, cs_col m kp, cs_entry m kp)] else []
     | None => [] end) kpiece.
Lemma csr_task_entries m dst src piece ghost kpiece :
  (forall kp, In kp kpiece -> csr_find_row (cs_rowptr m) piece kp <> None) ->
  csr_task A m dst src piece ghost kpiece = Ok (map (acc dst src) (csr_entries m piece ghost kpiece)).
Proof.
  induction kpiece as [|kp kpiece IH]; intros H; [reflexivity|].
  cbn [csr_task]. unfold csr_entries. cbn [flat_map]. fold (csr_entries m piece ghost kpiece).
  destruct (csr_find_row (cs_rowptr m) piece kp) as [row|] eqn:E; [|exfalso; apply (H kp (or_introl eq_refl) E)].
  rewrite IH by (intros k Hk; apply H; right; exact Hk). cbn [obind]. rewrite map_app.
  destruct (mem (cs_col m kp) ghost && mem row piece); reflexivity.
Qed.
Lemma csr_task_fails m dst src piece ghost kpiece kp :
  In kp kpiece -> csr_find_row (cs_rowptr m) piece kp = None ->
  csr_task A m dst src piece ghost kpiece = AssertFail.
Proof.
  intros Hin Hn. induction kpiece as [|k kpiece IH]; [destruct Hin|]. cbn [csr_task].
  destruct (csr_find_row (cs_rowptr m) piece k) as [row|] eqn:E; [|reflexivity].
  destruct Hin as [->|Hin]; [congruence|]. rewrite (IH Hin). reflexivity.
Qed.
Lemma csr_entries_rows m piece kpiece ghost t : In t (csr_entries m piece ghost kpiece) ->
  In (fst (fst t)) piece /\ In (snd (fst t)) ghost.
Proof.
  intros H. apply in_flat_map in H. destruct H as [kp [_ H]].
  destruct (csr_find_row (cs_rowptr m) piece kp) as [row|]; [|destruct H].
  destruct (mem (cs_col m kp) ghost && mem row piece) eqn:E; [|destruct H].
  apply andb_true_iff in E. destruct E as [E1 E2]. destruct H as [<-|[]]. cbn. split; apply mem_spec; assumption.
Qed.

(** The row search returns the last matching row. *)
Lemma csr_find_row_spec rowptr rows kp :
  match csr_find_row rowptr rows kp with
  | Some r => exists l1 l2, rows = l1 ++ r :: l2 /\ contains (rowptr r) kp = true /\
                forall r', In r' l2 -> contains (rowptr r') kp = false
  | None => forall r, In r rows -> contains (rowptr r) kp = false
  end.
Proof.
  unfold csr_find_row. induction rows as [|r rows IH] using rev_ind; [intros r []|].
  rewrite fold_left_app. cbn [fold_left]. destruct (contains (rowptr r) kp) eqn:E.
  - exists rows, []. split; [reflexivity|]. split; [exact E|intros r' []].
  - destruct (fold_left _ rows None) as [r0|].
    + destruct IH as [l1 [l2 [-> [H1 H2]]]]. exists l1, (l2 ++ [r]). split; [rewrite <- app_assoc; reflexivity|].
      split; [exact H1|]. intros r' Hr. apply in_app_or in Hr. destruct Hr as [Hr|[<-|[]]]; [apply H2; exact Hr|exact E].
    + intros r' Hr. apply in_app_or in Hr. destruct Hr as [Hr|[<-|[]]]; [apply IH; exact Hr|exact E].
Qed.
Lemma csr_find_row_some rowptr rows kp r : csr_find_row rowptr rows kp = Some r ->
  In r rows /\ contains (rowptr r) kp = true.
Proof.
  intros E. assert (H := csr_find_row_spec rowptr rows kp). rewrite E in H.
  destruct H as [l1 [l2 [-> [H1 _]]]]. split; [apply in_or_app; right; left; reflexivity|exact H1].
Qed.

Lemma sequence_map_ok X Y (f : X -> outcome Y) (g : X -> Y) l :
  (forall x, In x l -> f x = Ok (g x)) -> sequence (map f l) = Ok (map g l).
Proof.
  induction l as [|a l IH]; intros H; [reflexivity|]. cbn [map sequence].
  rewrite (H a (or_introl eq_refl)). cbn [obind]. rewrite IH by (intros x Hx; apply H; right; exact Hx). reflexivity.
Qed.

Definition entries_of (m : matrix T) (x : list point * (list point * list point)) : list triple :=
  let '(piece, (kpiece, ghost)) := x in
  match m with COO c => coo_entries c piece kpiece ghost | CSR c => csr_entries c piece ghost kpiece end.
Lemma entries_of_rows m piece kpiece ghost t : In t (entries_of m (piece, (kpiece, ghost))) ->
  In (fst (fst t)) piece /\ In (snd (fst t)) ghost.
Proof. destruct m as [c|c]; cbn; [apply coo_entries_rows|apply csr_entries_rows]. Qed.

Lemma combine_nth X Y (l1 : list X) (l2 : list Y) i : nth_error (combine l1 l2) i =
  match nth_error l1 i, nth_error l2 i with Some a, Some b => Some (a, b) | _, _ => None end.
Proof.
  revert l2 i. induction l1 as [|a l1 IH]; intros l2 i; cbn; [destruct i; reflexivity|].
  destruct l2 as [|b l2]; [destruct i; cbn; [reflexivity|]; destruct (nth_error l1 i); reflexivity|].
  destruct i; cbn; [reflexivity|apply IH].
Qed.
Lemma combine3_rows m dst kps ghosts : length kps = length (pieces lg dst) -> length ghosts = length (pieces lg dst) ->
  rows_within dst (map (entries_of m) (combine (pieces lg dst) (combine kps ghosts))).
Proof.
  intros H1 H2. apply Forall2_nth_intro.
  - rewrite map_length, !combine_length. lia.
  - intros i piece es Hp Hes t Ht. rewrite nth_error_map_some, !combine_nth, Hp in Hes.
    destruct (nth_error kps i) as [k|]; [|discriminate]. destruct (nth_error ghosts i) as [g|]; [|discriminate].
    injection Hes as <-. apply (entries_of_rows _ _ _ _ _ Ht).
Qed.

(** What a successful matvec call submits. *)
Lemma matvec_ok m dst src kps ghosts ln : matvec A lg m dst src kps ghosts = Ok ln ->
  length kps = length (pieces lg dst) /\ length ghosts = length (pieces lg dst) /\ distinct dst src /\
  ln = mk_launch (tasks_of dst src (map (entries_of m) (combine (pieces lg dst) (combine kps ghosts))))
         (matvec_reqs lg dst src ghosts) [] None [] [].
Proof.
  unfold matvec. destruct ((length kps =? length (pieces lg dst)) && _ && _) eqn:E; [|discriminate].
  apply andb_true_iff in E. destruct E as [E _]. apply andb_true_iff in E. destruct E as [E1 E2].
  apply Nat.eqb_eq in E1. apply Nat.eqb_eq in E2. intros H. unfold obind in H.
  destruct (matvec_tasks A lg m dst src kps ghosts) as [tasks| | |] eqn:Et; try discriminate.
  apply submit_ok in H. destruct H as [-> Hni].
  split; [exact E1|]. split; [exact E2|]. split.
  { exact (@no_alias2 dst src READ_WRITE READ_ONLY (pieces lg dst) ghosts Hni eq_refl). }
  f_equal. unfold tasks_of. rewrite map_map. unfold matvec_tasks in Et.
  clear Hni. revert tasks Et. generalize (combine (pieces lg dst) (combine kps ghosts)) as l. induction l as [|[piece [kpiece ghost]] l IH]; intros tasks Et.
  - cbn in Et. injection Et as <-. reflexivity.
  - cbn [map sequence] in Et. unfold obind in Et at 1. destruct m as [c|c].
    + destruct (sequence _) as [xs| | |] eqn:Es in Et; try discriminate. cbn [obind] in Et. injection Et as <-.
      cbn [map]. f_equal; [cbn; apply coo_task_entries|apply IH; exact Es].
    + destruct (csr_task A c dst src piece ghost kpiece) as [steps| | |] eqn:Ec; try discriminate.
      destruct (sequence _) as [xs| | |] eqn:Es in Et; try discriminate. cbn [obind] in Et. injection Et as <-.
      cbn [map]. f_equal; [|apply IH; exact Es]. cbn.
      assert (Hf : forall kp, In kp kpiece -> csr_find_row (cs_rowptr c) piece kp <> None).
      { intros kp Hk En. rewrite (csr_task_fails _ dst src piece ghost _ _ Hk En) in Ec. discriminate. }
      rewrite (csr_task_entries _ dst src _ ghost _ Hf) in Ec. injection Ec as <-. reflexivity.
Qed.

Lemma matvec_good m dst src kps ghosts ln : constructed lg dst ->
  matvec A lg m dst src kps ghosts = Ok ln -> good_launch ln.
Proof.
  intros Hc H. apply matvec_ok in H. destruct H as [H1 [H2 [Hd ->]]]. split; cbn [ln_tasks].
  - intros c t st Hct Hst. cbn [ln_tasks] in Hct. unfold tasks_of in Hct. rewrite !nth_error_map_some, !combine_nth in Hct.
    destruct (nth_error (pieces lg dst) c) as [piece|] eqn:Ep; [|discriminate].
    destruct (nth_error kps c) as [k|]; [|discriminate]. destruct (nth_error ghosts c) as [g|] eqn:Eg; [|discriminate].
    cbn [option_map] in Hct. injection Hct as <-. apply in_map_iff in Hst. destruct Hst as [[[r cc] e] [<- Hin]].
    apply entries_of_rows in Hin. cbn in Hin. destruct Hin as [Hr Hcc]. cbn. split.
    + exists (get_requirement lg dst READ_WRITE), piece. repeat split; auto.
    + intros l [<-|[<-|[]]]; cbn.
      * exists (get_requirement lg dst READ_WRITE), piece. repeat split; auto.
      * exists (mk_req (pv_region src) (pv_fid src) ghosts READ_ONLY), g. repeat split; auto.
  - apply tasks_non_interfering; [exact Hc|exact Hd|]. apply combine3_rows; assumption.
Qed.

(** Effect for arbitrary kernel and ghost partitions. *)
Theorem matvec_effect_general m dst src kps ghosts ln tr : constructed lg dst ->
  matvec A lg m dst src kps ghosts = Ok ln -> interleave (ln_tasks ln) tr -> forall s,
  (forall c piece kpiece ghost p, nth_error (pieces lg dst) c = Some piece -> nth_error kps c = Some kpiece ->
     nth_error ghosts c = Some ghost -> In p piece ->
     run tr s (at_point dst p) = accumulate_row A (fun q => s (at_point src q)) (s (at_point dst p))
       (filter (fun t => if point_eq_dec (fst (fst t)) p then true else false) (entries_of m (piece, (kpiece, ghost))))) /\
  (forall l, (forall p, In p (is_points lg (pv_space dst)) -> l <> at_point dst p) -> run tr s l = s l).
Proof.
  intros Hc H Hil s. apply matvec_ok in H. destruct H as [H1 [H2 [Hd ->]]]. cbn [ln_tasks] in Hil.
  destruct (tasks_effect Hc Hd (combine3_rows m dst kps ghosts H1 H2) Hil s) as [U1 U2]. split; [|exact U2].
  intros c piece kpiece ghost p Ep Ek Eg Hp. apply (U1 c).
  - rewrite nth_error_map_some, !combine_nth, Ep, Ek, Eg. reflexivity.
  - exists piece. split; assumption.
Qed.

(** ---- derived partitions ---- *)
Definition kernel_in_piece (m : matrix T) (piece : list point) (kp : point) : bool :=
  match m with
  | COO c => mem (co_row c kp) piece
  | CSR c => existsb (fun r => contains (cs_rowptr c r) kp) piece
  end.
Definition kpts (m : matrix T) := match m with COO c => co_kpts c | CSR c => cs_kpts c end.
Definition kcol (m : matrix T) := match m with COO c => co_col c | CSR c => cs_col c end.
Lemma kernel_from_range_ok m q kps : kernel_from_range lg m q = Ok kps ->
  kps = map (fun piece => filter (kernel_in_piece m piece) (kpts m)) (part_pieces lg q).
Proof.
  destruct m as [c|c]; cbn.
  - intros H; injection H as <-. reflexivity.
  - destruct (part_parent lg q =? cs_rows c); [|discriminate]. intros H; injection H as <-. reflexivity.
Qed.
Lemma domain_from_kernel_eq m space kps : domain_from_kernel lg m space kps =
  map (fun kpiece => filter (fun p => mem p (map (kcol m) kpiece)) (is_points lg space)) kps.
Proof. destruct m; reflexivity. Qed.

Lemma flat_map_filter X Y (g : X -> bool) (f : X -> list Y) l :
  flat_map f (filter g l) = flat_map (fun x => if g x then f x else []) l.
Proof.
  induction l as [|a l IH]; cbn; [reflexivity|]. destruct (g a); cbn; rewrite IH; reflexivity.
Qed.
Lemma map_as_flat_map X Y (f : X -> Y) l : map f l = flat_map (fun x => [f x]) l.
Proof. induction l as [|a l IH]; cbn; [reflexivity|]. rewrite IH. reflexivity. Qed.
Lemma mem_ghost m kpiece space p : mem p (filter (fun p => mem p (map (kcol m) kpiece)) space) = mem p space && mem p (map (kcol m) kpiece).
Proof.
  destruct (mem p space && mem p (map (kcol m) kpiece)) eqn:E.
  - apply andb_true_iff in E. destruct E as [E1 E2]. apply mem_spec. apply filter_In. split; [apply mem_spec; exact E1|exact E2].
  - apply mem_false. intros Hin. apply filter_In in Hin. destruct Hin as [H1 H2]. apply mem_spec in H1. rewrite H1, H2 in E. discriminate.
Qed.
Lemma filter_unique (l : list point) (f : point -> bool) p : NoDup l -> In p l -> f p = true ->
  (forall q, In q l -> f q = true -> q = p) -> filter f l = [p].
Proof.
  induction l as [|a l IH]; intros Hn Hin Hf Hu; [destruct Hin|]. inversion Hn; subst. cbn.
  destruct Hin as [->|Hin].
  - rewrite Hf. f_equal. apply filter_none. intros q Hq. destruct (f q) eqn:Eq; [|reflexivity].
    assert (q = p) by (apply Hu; [right; exact Hq|exact Eq]). subst q. contradiction.
  - destruct (f a) eqn:Ea.
    + assert (a = p) by (apply Hu; [left; reflexivity|exact Ea]). subst a. contradiction.
    + apply IH; try assumption. intros q Hq. apply Hu. right; exact Hq.
Qed.

(** With derived partitions, the triples of row [p] processed by the task owning [p] are exactly the row's
    triples (with a column in the source space), in storage order. *)
Lemma derived_entries m space rowspace piece p : matrix_ok lg m ->
  match m with COO _ => True | CSR c => cs_rows c = rowspace end ->
  incl piece (is_points lg rowspace) -> NoDup piece -> In p piece ->
  let kpiece := filter (kernel_in_piece m piece) (kpts m) in
  let ghost := filter (fun q => mem q (map (kcol m) kpiece)) (is_points lg space) in
  filter (fun t => if point_eq_dec (fst (fst t)) p then true else false) (entries_of m (piece, (kpiece, ghost)))
  = row_triples lg m (is_points lg space) p.
Proof.
  intros Hok Hrows Hincl Hnd Hp. cbv zeta. unfold row_triples.
  set (kpiece := filter (kernel_in_piece m piece) (kpts m)).
  assert (Hk : forall kp, In kp (kpts m) -> kernel_in_piece m piece kp = true -> mem (kcol m kp) (map (kcol m) kpiece) = true).
  { intros kp Hin Hkp. apply mem_spec. apply in_map. unfold kpiece. apply filter_In. split; assumption. }
  destruct m as [c|c].
  - cbn [entries_of triples]. unfold coo_entries. rewrite (map_as_flat_map (fun kp => (co_row c kp, co_col c kp, co_entry c kp))). rewrite !filter_flat_map.
    unfold kpiece at 2. rewrite flat_map_filter.
    apply flat_map_ext_in. intros kp Hin. cbn [kernel_in_piece kpts kcol] in *.
    destruct (mem (co_row c kp) piece) eqn:Em.
    + rewrite (mem_ghost (COO c)). cbn [kcol]. rewrite (Hk kp Hin Em), andb_true_r, andb_true_r.
      destruct (mem (co_col c kp) (is_points lg space)) eqn:Ec; cbn [filter fst snd];
        destruct (point_eq_dec (co_row c kp) p); cbn [andb]; try rewrite Ec; reflexivity.
    + cbn [filter]. destruct (point_eq_dec (co_row c kp) p) as [E|E]; [|reflexivity].
      exfalso. apply mem_false in Em. apply Em. rewrite E. exact Hp.
  - cbn [entries_of triples]. unfold csr_entries. rewrite !filter_flat_map. unfold kpiece at 2. rewrite flat_map_filter.
    apply flat_map_ext_in. intros kp Hin. cbn [kernel_in_piece kpts kcol matrix_ok] in *. subst rowspace.
    rewrite filter_map_comm.
    destruct (existsb (fun r => contains (cs_rowptr c r) kp) piece) eqn:Em.
    + apply existsb_exists in Em. destruct Em as [r0 [Hr0 Hc0]].
      assert (Hfind := csr_find_row_spec (cs_rowptr c) piece kp).
      destruct (csr_find_row (cs_rowptr c) piece kp) as [row|] eqn:Ef.
      2:{ rewrite (Hfind r0 Hr0) in Hc0. discriminate. }
      destruct (csr_find_row_some _ _ _ Ef) as [Hrow Hcrow].
      assert (Ef2 : filter (fun r => contains (cs_rowptr c r) kp) (is_points lg (cs_rows c)) = [row]).
      { apply filter_unique; [apply Hlg|apply Hincl; exact Hrow|exact Hcrow|].
        intros q Hq Hcq. apply (Hok kp q row); [exact Hin|exact Hq|apply Hincl; exact Hrow|exact Hcq|exact Hcrow]. }
      rewrite Ef2. assert (Hex : existsb (fun r => contains (cs_rowptr c r) kp) piece = true) by (apply existsb_exists; exists r0; split; assumption).
      rewrite (mem_ghost (CSR c)). cbn [kcol]. rewrite (Hk kp Hin Hex), andb_true_r.
      rewrite (proj2 (mem_spec row piece) Hrow), andb_true_r.
      destruct (mem (cs_col c kp) (is_points lg space)) eqn:Ec; cbn [filter fst snd map];
        destruct (point_eq_dec row p); cbn [andb map]; try rewrite Ec; reflexivity.
    + (* no row of the piece contains kp, so row p does not *)
      rewrite filter_none; [reflexivity|]. intros r Hr. destruct (point_eq_dec r p) as [E|E]; [|reflexivity].
      exfalso. subst r. apply filter_In in Hr. destruct Hr as [_ Hr].
      assert (existsb (fun r => contains (cs_rowptr c r) kp) piece = true) by (apply existsb_exists; exists p; split; assumption).
      congruence.
Qed.
End Facts.
