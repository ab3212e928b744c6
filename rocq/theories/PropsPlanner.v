(** PropsPlanner: properties C16 - C18 (SquarePlanner) and C53 (asynchronous execution = program order). *)
From Coq Require Import Reals Lra.
From Verif Require Import Base Index Outcome Sched Async Arith Launch Vector PartitionSpec VectorFacts LaunchFacts Matrix MatrixSpec MatrixFacts
  MatvecFacts Builder BuilderFacts Exec ExactSum Planner PlannerFacts PlannerSetup PropsVector PropsMatrix.
Set Implicit Arguments.

(** ** What the user has to provide: vectors built on complete disjoint partitions, each with its own storage,
    as many solution as right-hand-side components, and matrices whose CSR row intervals do not overlap. *)
Record well_formed {T} (lg : legion) (cs : list (setup_call T)) (st : ist) : Prop := mk_well_formed {
  wf_vectors : forall v, In v (sols_of cs ++ rhss_of cs) -> constructed lg v /\ pv_region v < next_region st;
  wf_storage : NoDup (map storage (sols_of cs ++ rhss_of cs));
  wf_counts : length (sols_of cs) = length (rhss_of cs);
  wf_matrices : forall m d r, In (m, d, r) (mats_of cs) -> matrix_ok lg m }.
(** [pl0] is the planner after the calls [cs]. *)
Definition set_up {T} (lg : legion) (cs : list (setup_call T)) (st : ist) (pl0 : planner T) : Prop :=
  well_formed lg cs st /\ do_calls lg (new_planner T) cs = Ok pl0.
(** [pl] is the planner after the calls [cs] and allocate_workspace([nw]). *)
Definition working {T} (lg : legion) (cs : list (setup_call T)) (nw : nat) (pl : planner T) : Prop :=
  exists st pl0 lns st', set_up lg cs st pl0 /\ allocate_workspace lg pl0 nw st = Ok (pl, lns, st').

Section Facts.
Variable T : Type.
Variable lg : legion.
Lemma set_up_facts cs st pl0 : @set_up T lg cs st pl0 -> pre pl0 /\ mats_ok lg pl0 (length (pl_sol pl0)) /\
  pl_sol pl0 = sols_of cs /\ pl_rhs pl0 = rhss_of cs /\ map (fun pm => (pm_matrix pm, pm_domain pm, pm_range pm)) (pl_mats pl0) = mats_of cs /\
  length (pl_sol pl0) = length (pl_rhs pl0).
Proof.
  intros [[W1 W2 W3 W4] H]. assert (M0 : mats_ok lg (new_planner T) (min_len (new_planner T))) by (intros pm []).
  destruct (@do_calls_spec T lg cs (new_planner T) pl0 (pre_new T) M0) as [C1 [C2 [C3 [C4 C5]]]]; auto.
  { intros v Hv. apply W1. exact Hv. }
  cbn in C3, C4, C5. split; [exact C1|]. assert (L : length (pl_sol pl0) = length (pl_rhs pl0)) by (rewrite C3, C4; exact W3).
  split; [|split; [exact C3|split; [exact C4|split; [exact C5|exact L]]]].
  unfold min_len in C2. rewrite <- L, Nat.max_id in C2. exact C2.
Qed.
Lemma allocate_ready (cs : list (setup_call T)) st (pl0 : planner T) nw : set_up lg cs st pl0 ->
  allocate_workspace lg pl0 nw st = Ok (with_workspace lg pl0 (next_region st) nw, [], mk_ist (next_fut st) (next_region st + length (pl_parts pl0))) /\
  ready lg (with_workspace lg pl0 (next_region st) nw) (length (sols_of cs)) (2 + nw) /\
  pl_mats (with_workspace lg pl0 (next_region st) nw) = pl_mats pl0.
Proof.
  intros Hs. destruct (set_up_facts Hs) as [C1 [C2 [C3 [C4 [C5 C6]]]]]. destruct Hs as [[W1 W2 W3 W4] H].
  rewrite <- C3 in *. rewrite <- C4 in *.
  split; [apply allocate_spec; [exact C1|]|split; [apply set_up_ready; assumption|reflexivity]].
  apply (pre_parts_cd C1). intros v Hv. apply W1. exact Hv.
Qed.
Lemma working_ready cs nw pl : @working T lg cs nw pl -> ready lg pl (length (sols_of cs)) (2 + nw) /\
  map (fun pm => (pm_matrix pm, pm_domain pm, pm_range pm)) (pl_mats pl) = mats_of cs /\ pl_sol pl = sols_of cs /\ pl_rhs pl = rhss_of cs.
Proof.
  intros [st [pl0 [lns [st' [Hs Ha]]]]]. destruct (@allocate_ready cs st pl0 nw Hs) as [E [R Em]]. rewrite E in Ha. injection Ha as <- _ _.
  destruct (set_up_facts Hs) as [_ [_ [C3 [C4 [C5 _]]]]]. split; [exact R|]. split; [rewrite Em; exact C5|]. split; [exact C3|exact C4].
Qed.
End Facts.

(** Component [i] of planner vector [vi] (0 = solution, 1 = right-hand side, 2.. = workspace). *)
Definition component {T} (pl : planner T) (vi i : nat) (v : pvec) : Prop := get_vector pl vi i = Ok v.
(** [l] is a location of planner vector [vi] *)
Definition of_vector {T} (lg : legion) (pl : planner T) (vi : nat) (l : loc) : Prop :=
  exists i v p, component pl vi i v /\ In p (is_points lg (pv_space v)) /\ l = at_point v p.

(** ** C18.  The set-up protocol *)
(** the call [c] is allowed after the calls [before] *)
Definition allowed {T} (before : list (setup_call T)) (c : setup_call T) : Prop :=
  match c with
  | AddSol v => forall w, nth_error (rhss_of before) (length (sols_of before)) = Some w -> pv_space v = pv_space w /\ pv_part v = pv_part w
  | AddRhs v => forall w, nth_error (sols_of before) (length (rhss_of before)) = Some w -> pv_space v = pv_space w /\ pv_part v = pv_part w
  | AddMatrix m d r => length (sols_of before) = length (rhss_of before) /\ d < length (sols_of before) /\ r < length (sols_of before) /\
      match m with COO _ => True | CSR c => forall v, nth_error (sols_of before) r = Some v -> pv_space v = cs_rows c end
  end.
Definition legal {T} (cs : list (setup_call T)) : Prop := forall before c after, cs = before ++ c :: after -> allowed before c.
Definition csr_misfit {T} (before : list (setup_call T)) (c : setup_call T) : Prop :=
  match c with
  | AddMatrix (CSR c) d r => exists v, nth_error (sols_of before) r = Some v /\ pv_space v <> cs_rows c
  | _ => False
  end.
Section SetupFacts.
Variable T : Type.
Variable lg : legion.
Lemma sols_app (a b : list (setup_call T)) : sols_of (a ++ b) = sols_of a ++ sols_of b.
Proof. apply flat_map_app. Qed.
Lemma rhss_app (a b : list (setup_call T)) : rhss_of (a ++ b) = rhss_of a ++ rhss_of b.
Proof. apply flat_map_app. Qed.
Lemma do_calls_app (pl : planner T) a b : do_calls lg pl (a ++ b) = obind (do_calls lg pl a) (fun pl' => do_calls lg pl' b).
Proof. revert pl. induction a as [|c a IH]; intros pl; cbn [do_calls app obind]; [reflexivity|]. destruct (do_call lg pl c); cbn [obind]; auto. Qed.
(** the outcome of one more call *)
Lemma do_call_spec before pl c : do_calls lg (new_planner T) before = Ok pl ->
  (forall v, In v (sols_of (before ++ [c]) ++ rhss_of (before ++ [c])) -> constructed lg v) ->
  (forall m d r, In (m, d, r) (mats_of before) -> matrix_ok lg m) ->
  (allowed before c -> exists pl', do_call lg pl c = Ok pl') /\
  (~ allowed before c -> ~ csr_misfit before c -> do_call lg pl c = AssertFail).
Proof.
  intros H Hv Hm. assert (M0 : mats_ok lg (new_planner T) (min_len (new_planner T))) by (intros pm []).
  assert (Hv0 : forall v, In v (sols_of before ++ rhss_of before) -> constructed lg v).
  { intros v Hin. apply Hv. rewrite sols_app, rhss_app. apply in_app_or in Hin. apply in_or_app. destruct Hin as [Hin|Hin]; [left|right]; apply in_or_app; left; exact Hin. }
  destruct (@do_calls_spec T lg before (new_planner T) pl (pre_new T) M0 Hv0 Hm H) as [C1 [C2 [C3 [C4 _]]]]. cbn in C3, C4.
  assert (Hnew : forall v, In v (sols_of [c] ++ rhss_of [c]) -> constructed lg v).
  { intros v Hin. apply Hv. rewrite sols_app, rhss_app. apply in_app_or in Hin. apply in_or_app. destruct Hin as [Hin|Hin]; [left|right]; apply in_or_app; right; exact Hin. }
  destruct c as [v|v|m d r]; cbn [allowed do_call csr_misfit].
  - assert (Hvv : constructed lg v) by (apply Hnew; left; reflexivity).
    destruct (add_sol_spec C1 Hvv) as [[Es [pl2 [E2 _]]]|[Es E2]]; rewrite E2; cbn [obind]; (split; [|intros N _]).
    + intros _. eexists; reflexivity.
    + exfalso. apply N. intros w Hw. rewrite <- C3, <- C4 in Hw. assert (X := proj1 (same_layoutb_spec _ _) Es w Hw). unfold layout in X. injection X as -> ->. auto.
    + intros N. exfalso. rewrite <- C3, <- C4 in N. assert (X : same_layoutb v (nth_error (pl_rhs pl) (length (pl_sol pl))) = true).
      { apply same_layoutb_spec. intros y Hy. destruct (N y Hy). unfold layout. congruence. }
      congruence.
    + reflexivity.
  - assert (Hvv : constructed lg v) by (apply Hnew; left; reflexivity).
    destruct (add_rhs_spec C1 Hvv) as [[Es [pl2 [E2 _]]]|[Es E2]]; rewrite E2; cbn [obind]; (split; [|intros N _]).
    + intros _. eexists; reflexivity.
    + exfalso. apply N. intros w Hw. rewrite <- C3, <- C4 in Hw. assert (X := proj1 (same_layoutb_spec _ _) Es w Hw). unfold layout in X. injection X as -> ->. auto.
    + intros N. exfalso. rewrite <- C3, <- C4 in N. assert (X : same_layoutb v (nth_error (pl_sol pl) (length (pl_rhs pl))) = true).
      { apply same_layoutb_spec. intros y Hy. destruct (N y Hy). unfold layout. congruence. }
      congruence.
    + reflexivity.
  - unfold add_row_partitioned_matrix. rewrite (num_spaces_pre C1). rewrite <- C3, <- C4.
    destruct (length (pl_sol pl) =? length (pl_rhs pl)) eqn:El.
    2:{ apply Nat.eqb_neq in El. split; [intros [X _]; contradiction|reflexivity]. }
    apply Nat.eqb_eq in El. cbn [obind].
    destruct (d <? length (pl_sol pl)) eqn:Ed.
    2:{ apply Nat.ltb_ge in Ed. split; [intros [_ [X _]]; lia|reflexivity]. }
    destruct (r <? length (pl_sol pl)) eqn:Er.
    2:{ apply Nat.ltb_ge in Er. split; [intros [_ [_ [X _]]]; lia|reflexivity]. }
    apply Nat.ltb_lt in Ed. apply Nat.ltb_lt in Er. cbn [oassert].
    assert (Lp : length (pl_parts pl) = length (pl_sol pl)) by (rewrite (pre_parts C1), map_length, merge_length, !map_length; lia).
    assert (Ls : length (pl_spaces pl) = length (pl_sol pl)) by (rewrite (pre_spaces C1), map_length, merge_length, !map_length; lia).
    destruct (nth_error (pl_parts pl) r) as [q|] eqn:Eq; [|apply nth_error_None in Eq; lia].
    destruct (nth_error (pl_spaces pl) d) as [sp|] eqn:Esp; [|apply nth_error_None in Esp; lia].
    destruct (nth_error (pl_sol pl) r) as [v|] eqn:Evr; [|apply nth_error_None in Evr; lia].
    assert (Eqv : q = pv_part v).
    { rewrite (pre_parts C1), nth_error_map_some, merge_nth_l, nth_error_map_some, Evr in Eq by (rewrite map_length; exact Er). cbn in Eq. congruence. }
    assert (Hcv : constructed lg v) by (apply Hv0; apply in_or_app; left; rewrite <- C3; eapply nth_error_In; exact Evr).
    destruct m as [m|m]; cbn [kernel_from_range].
    + split; [intros _; eexists; reflexivity|]. intros N _. exfalso. apply N. auto.
    + rewrite Eqv, (constructed_parent Hcv). destruct (pv_space v =? cs_rows m) eqn:Eb; cbn [obind].
      * split; [intros _; eexists; reflexivity|]. intros N _. exfalso. apply N. apply Nat.eqb_eq in Eb. repeat split; auto. intros w Hw. congruence.
      * apply Nat.eqb_neq in Eb. split; [intros [_ [_ [_ X]]]; exfalso; apply Eb; apply X; reflexivity|].
        intros _ N. exfalso. apply N. exists v. auto.
Qed.
End SetupFacts.
(** Any interleaving of legal calls is accepted, registers the components in order, and the first call that is
    not allowed is rejected (unless it is a CSR matrix whose row space is not the component's space, which Legion
    itself refuses). *)
Theorem C18_legal_calls_accepted : forall (T : Type) (lg : legion) (cs : list (setup_call T)),
  (forall v, In v (sols_of cs ++ rhss_of cs) -> constructed lg v) -> (forall m d r, In (m, d, r) (mats_of cs) -> matrix_ok lg m) ->
  legal cs ->
  exists pl, do_calls lg (new_planner T) cs = Ok pl /\ pl_sol pl = sols_of cs /\ pl_rhs pl = rhss_of cs /\
    map (fun pm => (pm_matrix pm, pm_domain pm, pm_range pm)) (pl_mats pl) = mats_of cs /\
    (forall before v after, cs = before ++ AddSol v :: after ->
       exists pl1 pl2, do_calls lg (new_planner T) before = Ok pl1 /\ add_sol_vector lg pl1 v = Ok (pl2, length (sols_of before))) /\
    (forall before v after, cs = before ++ AddRhs v :: after ->
       exists pl1 pl2, do_calls lg (new_planner T) before = Ok pl1 /\ add_rhs_vector lg pl1 v = Ok (pl2, length (rhss_of before))).
Proof.
  intros T lg cs Hv Hm Hl.
  assert (G : forall before after, cs = before ++ after -> exists pl, do_calls lg (new_planner T) before = Ok pl).
  { induction before as [|c before IH] using rev_ind; intros after E; [eexists; reflexivity|].
    rewrite <- app_assoc in E. cbn in E. destruct (IH _ E) as [pl Hpl].
    destruct (@do_call_spec T lg before pl c Hpl) as [D _].
    - intros v Hin. apply Hv. rewrite E. rewrite sols_app, rhss_app in Hin. cbn [app]. change (c :: after) with ([c] ++ after).
      rewrite !sols_app, !rhss_app. rewrite !in_app_iff in *. tauto.
    - intros m d r Hin. apply (Hm m d r). rewrite E. unfold mats_of. rewrite flat_map_app. apply in_or_app. left. exact Hin.
    - destruct D as [pl' D]; [apply (Hl before c after E)|]. exists pl'. rewrite do_calls_app, Hpl. cbn [obind do_calls]. rewrite D. reflexivity. }
  destruct (G cs []) as [pl Hpl]; [rewrite app_nil_r; reflexivity|]. exists pl. split; [exact Hpl|].
  assert (M0 : mats_ok lg (new_planner T) (min_len (new_planner T))) by (intros pm []).
  assert (Spec : forall before after pl, cs = before ++ after -> do_calls lg (new_planner T) before = Ok pl ->
     pre pl /\ pl_sol pl = sols_of before /\ pl_rhs pl = rhss_of before /\ map (fun pm => (pm_matrix pm, pm_domain pm, pm_range pm)) (pl_mats pl) = mats_of before).
  { intros before after pl1 E H1. destruct (@do_calls_spec T lg before (new_planner T) pl1 (pre_new T) M0) as [C1 [C2 [C3 [C4 C5]]]]; auto.
    - intros v Hin. apply Hv. rewrite E, sols_app, rhss_app, !in_app_iff. rewrite in_app_iff in Hin. tauto.
    - intros m d r Hin. apply (Hm m d r). rewrite E. unfold mats_of. rewrite flat_map_app. apply in_or_app. left. exact Hin. }
  destruct (Spec cs [] pl) as [C1 [C3 [C4 C5]]]; [rewrite app_nil_r; reflexivity|exact Hpl|].
  split; [exact C3|]. split; [exact C4|]. split; [exact C5|].
  split; intros before v after E; destruct (G before _ E) as [pl1 H1]; destruct (Spec before _ pl1 E H1) as [P1 [P3 [P4 _]]];
    (assert (Hvv : constructed lg v) by (apply Hv; rewrite E, sols_app, rhss_app; cbn; rewrite !in_app_iff; cbn; tauto));
    assert (Hal := Hl before _ after E); cbn in Hal.
  - destruct (add_sol_spec P1 Hvv) as [[Es [pl2 [E2 _]]]|[Es E2]].
    + exists pl1, pl2. rewrite <- P3. split; assumption.
    + exfalso. assert (X : same_layoutb v (nth_error (pl_rhs pl1) (length (pl_sol pl1))) = true).
      { apply same_layoutb_spec. intros y Hy. rewrite P3, P4 in Hy. destruct (Hal y Hy). unfold layout. congruence. } congruence.
  - destruct (add_rhs_spec P1 Hvv) as [[Es [pl2 [E2 _]]]|[Es E2]].
    + exists pl1, pl2. rewrite <- P4. split; assumption.
    + exfalso. assert (X : same_layoutb v (nth_error (pl_sol pl1) (length (pl_rhs pl1))) = true).
      { apply same_layoutb_spec. intros y Hy. rewrite P3, P4 in Hy. destruct (Hal y Hy). unfold layout. congruence. } congruence.
Qed.
Theorem C18_illegal_call_rejected : forall (T : Type) (lg : legion) (before after : list (setup_call T)) (c : setup_call T),
  (forall v, In v (sols_of (before ++ [c]) ++ rhss_of (before ++ [c])) -> constructed lg v) -> (forall m d r, In (m, d, r) (mats_of before) -> matrix_ok lg m) ->
  legal before -> ~ allowed before c -> ~ csr_misfit before c -> do_calls lg (new_planner T) (before ++ c :: after) = AssertFail.
Proof.
  intros T lg before after c Hv Hm Hl Hn Hc.
  destruct (@C18_legal_calls_accepted T lg before) as [pl [Hpl _]]; auto.
  { intros v Hin. apply Hv. rewrite sols_app, rhss_app, !in_app_iff. rewrite in_app_iff in Hin. tauto. }
  destruct (@do_call_spec T lg before pl c Hpl Hv Hm) as [_ D]. rewrite do_calls_app, Hpl. cbn [obind do_calls]. rewrite (D Hn Hc). reflexivity.
Qed.
(** Once the workspace is allocated, components can no longer be added and the workspace not allocated again;
    matrices still can. *)
Theorem C18_after_workspace : forall (T : Type) (lg : legion) (cs : list (setup_call T)) (nw : nat) (pl : planner T),
  working lg cs nw pl ->
  (forall v, add_sol_vector lg pl v = AssertFail /\ add_rhs_vector lg pl v = AssertFail) /\
  (forall k st, rejected (allocate_workspace lg pl k) st) /\
  (forall m d r, length (sols_of cs) <= d \/ length (sols_of cs) <= r -> add_row_partitioned_matrix lg pl m d r = AssertFail) /\
  (forall c d r, d < length (sols_of cs) -> r < length (sols_of cs) -> exists pl', add_row_partitioned_matrix lg pl (COO c) d r = Ok pl').
Proof.
  intros T lg cs nw pl Hw. destruct (working_ready Hw) as [R _].
  assert (Hf : no_workspace pl = false).
  { destruct Hw as [st [pl0 [lns [st' [Hs Ha]]]]]. destruct (allocate_ready nw Hs) as [E _]. rewrite E in Ha. injection Ha as <- _ _. reflexivity. }
  split; [intros v; unfold add_sol_vector, add_rhs_vector; rewrite Hf; auto|].
  split; [intros k st; unfold rejected, allocate_workspace, bind, massert; rewrite Hf; reflexivity|].
  split.
  - intros m d r H. unfold add_row_partitioned_matrix. rewrite (rd_num R). cbn [obind].
    destruct (d <? length (sols_of cs)) eqn:Ed; [|reflexivity]. apply Nat.ltb_lt in Ed. cbn [oassert].
    destruct (r <? length (sols_of cs)) eqn:Er; [|reflexivity]. apply Nat.ltb_lt in Er. lia.
  - intros c d r Hd Hr. unfold add_row_partitioned_matrix. rewrite (rd_num R). cbn [obind].
    rewrite (proj2 (Nat.ltb_lt _ _) Hd), (proj2 (Nat.ltb_lt _ _) Hr). cbn [oassert].
    assert (L : length (pl_parts pl) = length (sols_of cs) /\ length (pl_spaces pl) = length (sols_of cs)).
    { assert (Hn := rd_num R). unfold get_num_spaces in Hn. apply oassert_ok in Hn. destruct Hn as [E1 Hn]. apply Nat.eqb_eq in E1.
      do 5 (apply oassert_ok in Hn; destruct Hn as [_ Hn]). injection Hn as Hn. lia. }
    destruct L as [L1 L2]. destruct (nth_error (pl_parts pl) r) as [q|] eqn:Eq; [|apply nth_error_None in Eq; lia].
    destruct (nth_error (pl_spaces pl) d) as [sp|] eqn:Esp; [|apply nth_error_None in Esp; lia]. cbn. eexists; reflexivity.
Qed.
(** allocate_workspace itself succeeds for every size, issues no launch, and gives [nw] further vectors laid out
    like the solution. *)
Theorem C18_allocate_workspace : forall (T : Type) (lg : legion) (cs : list (setup_call T)) (nw : nat) st (pl0 : planner T),
  set_up lg cs st pl0 ->
  exists pl st', allocate_workspace lg pl0 nw st = Ok (pl, [], st') /\ pl_sol pl = sols_of cs /\ pl_rhs pl = rhss_of cs /\
    (forall vi i v0, vi < 2 + nw -> nth_error (sols_of cs) i = Some v0 -> exists v, component pl vi i v /\ compatible_layout v v0) /\
    (forall vi i v vj j w, vi < 2 + nw -> vj < 2 + nw -> component pl vi i v -> component pl vj j w -> vi <> vj \/ i <> j -> distinct_storage v w).
Proof.
  intros T lg cs nw st pl0 Hs. destruct (allocate_ready nw Hs) as [E [R _]]. eexists. eexists. split; [exact E|].
  assert (Hw : working lg cs nw (with_workspace lg pl0 (next_region st) nw)) by (exists st, pl0; eexists; eexists; split; [exact Hs|exact E]).
  destruct (working_ready Hw) as [_ [_ [C3 C4]]]. split; [exact C3|]. split; [exact C4|]. set (pl := with_workspace lg pl0 (next_region st) nw) in *.
  assert (Hlen : forall vi i v, vi < 2 + nw -> component pl vi i v -> i < length (sols_of cs) /\ v = vec pl vi i).
  { intros vi i v Hvi Hcp. unfold component in Hcp. split; [|unfold vec; rewrite Hcp; reflexivity].
    unfold get_vector in Hcp. destruct (rd_rows R Hvi) as [vs [Ev L]]. rewrite Ev in Hcp. cbn [obind] in Hcp. rewrite <- L. apply nth_error_Some.
    destruct (nth_error vs i); discriminate. }
  split.
  - intros vi i v0 Hvi H0. assert (Hi : i < length (sols_of cs)) by (apply nth_error_Some; congruence). exists (vec pl vi i).
    split; [unfold component; apply (get_vector_vec R); assumption|]. apply same_layout_spec.
    assert (E0 : v0 = vec pl 0 i). { unfold vec, get_vector, vector_row. rewrite C3. cbn [obind]. rewrite H0. reflexivity. }
    rewrite E0. apply (vec_same_layout R); [exact Hvi|lia|exact Hi].
  - intros vi i v vj j w Hvi Hvj Hc1 Hc2 Hne. destruct (Hlen _ _ _ Hvi Hc1) as [Hi ->]. destruct (Hlen _ _ _ Hvj Hc2) as [Hj ->].
    unfold distinct_storage. destruct (Nat.eq_dec (pv_region (vec pl vi i)) (pv_region (vec pl vj j))) as [E1|]; [|left; assumption].
    right. intros E2. destruct (rd_distinct R Hvi Hi Hvj Hj E1 E2). tauto.
Qed.

(** ** C16.  The planner product *)
Section Bridge.
Variable T : Type.
Variable lg : legion.
Variables (cs : list (setup_call T)) (nw : nat) (pl : planner T).
Hypothesis Hw : working lg cs nw pl.
Notation n := (length (sols_of cs)).
Lemma component_iff vi i v : vi < 2 + nw -> (component pl vi i v <-> i < n /\ v = vec pl vi i).
Proof.
  intros Hvi. destruct (working_ready Hw) as [R _]. split.
  - intros Hcp. unfold component in Hcp. split; [|unfold vec; rewrite Hcp; reflexivity].
    unfold get_vector in Hcp. destruct (rd_rows R Hvi) as [vs [Ev L]]. rewrite Ev in Hcp. cbn [obind] in Hcp. rewrite <- L. apply nth_error_Some.
    destruct (nth_error vs i); discriminate.
  - intros [Hi ->]. unfold component. apply (get_vector_vec R); assumption.
Qed.
Lemma component_points vi i v : vi < 2 + nw -> component pl vi i v -> is_points lg (pv_space v) = pts lg pl i.
Proof. intros Hvi Hc. apply component_iff in Hc; [|exact Hvi]. destruct Hc as [Hi ->]. destruct (working_ready Hw) as [R _]. apply (vec_space R); assumption. Qed.
Lemma of_vector_iff vi l : vi < 2 + nw -> (of_vector lg pl vi l <-> in_vector lg pl n vi l).
Proof.
  intros Hvi. split.
  - intros [i [v [p [Hc [Hp ->]]]]]. rewrite (component_points Hvi Hc) in Hp. apply component_iff in Hc; [|exact Hvi]. destruct Hc as [Hi ->].
    exists i, p. auto.
  - intros [i [p [Hi [Hp ->]]]]. exists i, (vec pl vi i), p. assert (Hc : component pl vi i (vec pl vi i)) by (apply component_iff; auto).
    split; [exact Hc|]. rewrite (component_points Hvi Hc). auto.
Qed.
(** index space of component [i] *)
Lemma pts_space i : i < n -> pts lg pl i = is_points lg (pv_space (nth i (sols_of cs) dummy_vec)).
Proof.
  intros Hi. destruct (working_ready Hw) as [R [_ [C3 _]]]. rewrite <- (@vec_space T lg pl n (2 + nw) R 0 i) by lia. f_equal. f_equal.
  unfold vec, get_vector, vector_row. rewrite C3. cbn [obind]. rewrite (nth_error_nth' (sols_of cs) dummy_vec Hi). reflexivity.
Qed.
End Bridge.

(** index space of component [i] of the system *)
Definition space_of {T} (cs : list (setup_call T)) (i : nat) : nat := pv_space (nth i (sols_of cs) dummy_vec).
(** entry [p] of component [i] of the block product: start with zero and add the rows of all matrices with range
    index [i], in the order in which the matrices were added *)
Definition block_product {T} (A : arith T) (lg : legion) (cs : list (setup_call T)) (x : nat -> point -> T) (i : nat) (p : point) : T :=
  fold_left (fun acc mdr => let '(m, d, r) := mdr in
      if r =? i then add_products A m (x d) acc (row_entries lg m (space_of cs d) p) else acc)
    (mats_of cs) (a0 A).
Theorem C16_planner_matvec : forall (T : Type) (A : arith T) (lg : legion) (cs : list (setup_call T)) (nw : nat) (pl : planner T) (dst src : nat),
  legion_ok lg -> working lg cs nw pl -> dst < 2 + nw -> src < 2 + nw -> dst <> src ->
  (forall st, accepted (pl_matvec A lg pl dst src) st) /\
  (forall st s st' s' x, ends (pl_matvec A lg pl dst src) st s tt st' s' ->
    (forall d w q, component pl src d w -> In q (is_points lg (pv_space w)) -> x d q = s (at_point w q)) ->
    (forall i v p, component pl dst i v -> In p (is_points lg (pv_space v)) -> s' (at_point v p) = block_product A lg cs x i p) /\
    (forall l, ~ of_vector lg pl dst l -> s' l = s l)).
Proof.
  intros T A lg cs nw pl dst src Hlg Hw Hd Hs Hne. destruct (working_ready Hw) as [R [Em _]]. split.
  - intros st. apply (@wp_accepted T unit _ (fun _ _ _ => True) st (fun _ => a0 A)). apply (wp_matvec Hlg R); auto.
  - intros st s st' s' x He Hx.
    assert (W : wp (pl_matvec A lg pl dst src) (fun _ _ s1 => updates lg pl (length (sols_of cs)) dst (matvec_value A lg pl (fun i p => s (cell pl src i p))) s s1) st s).
    { apply (wp_matvec Hlg R); auto. }
    destruct (wp_ends W He) as [s1 [[U1 U2] E]]. split.
    + intros i v p Hc Hp. rewrite (component_points Hw Hd Hc) in Hp. destruct (proj1 (component_iff Hw i v Hd) Hc) as [Hi ->].
      rewrite E. change (at_point (vec pl dst i) p) with (cell pl dst i p). rewrite (U1 i p Hi Hp).
      unfold matvec_value, block_product. rewrite <- Em.
      assert (G : forall (l : list (pl_matrix T)) acc, (forall pm, In pm l -> In pm (pl_mats pl)) ->
        fold_left (fun acc pm => if pm_range pm =? i then accumulate_row A (fun q => s (cell pl src (pm_domain pm) q)) acc (row_triples lg (pm_matrix pm) (pts lg pl (pm_domain pm)) p) else acc) l acc =
        fold_left (fun acc mdr => let '(m, d, r) := mdr in if r =? i then add_products A m (x d) acc (row_entries lg m (space_of cs d) p) else acc)
          (map (fun pm => (pm_matrix pm, pm_domain pm, pm_range pm)) l) acc).
      { induction l as [|pm l IH]; intros acc Hin; [reflexivity|]. cbn [map fold_left]. rewrite IH by (intros pm' H'; apply Hin; right; exact H'). f_equal.
        destruct (pm_range pm =? i) eqn:Er; [|reflexivity]. apply Nat.eqb_eq in Er.
        destruct (rd_mats R pm (Hin _ (or_introl eq_refl))) as [M1 [M2 [M3 [M4 M5]]]].
        rewrite accumulate_entries; [|exact Hlg|].
        - unfold row_entries, space_of. rewrite <- (pts_space Hw M2). unfold add_products.
          apply fold_left_ext. intros a kp Hk. apply filter_In in Hk. destruct Hk as [_ Hk]. apply andb_true_iff in Hk. destruct Hk as [_ Hk]. apply mem_spec in Hk.
          assert (Hcs : component pl src (pm_domain pm) (vec pl src (pm_domain pm))) by (apply (component_iff Hw); auto).
          rewrite (Hx _ _ _ Hcs); [reflexivity|]. rewrite (component_points Hw Hs Hcs). exact Hk.
        - destruct (pm_matrix pm) as [c|c] eqn:Ec; [exact I|]. destruct (@kernel_from_range_pieces T lg (CSR c) _ _ M4) as [_ Hr].
          rewrite <- Hr. assert (Hc2 := rd_constructed R Hd M3). destruct (rd_layout R Hd M3) as [_ Ep]. rewrite <- Ep, (constructed_parent Hc2), (vec_space R Hd M3).
          rewrite Er. exact Hp. }
      apply G. auto.
    + intros l Hl. rewrite E. apply U2. intros Hin. apply Hl. apply (of_vector_iff Hw l Hd). exact Hin.
Qed.

(** *** Exact arithmetic: the added matrices are a real linear operator on the unknowns *)
(** the unknowns of the system: (component, point) *)
Definition unknown : Type := (nat * point)%type.
Definition unknowns {T} (lg : legion) (cs : list (setup_call T)) : list unknown :=
  flat_map (fun i => map (pair i) (is_points lg (space_of cs i))) (seq 0 (length (sols_of cs))).
(** planner vector [vi] holds the real numbers [f] *)
Definition vector_is (lg : legion) (pl : planner (option R)) (s : store loc (option R)) (vi : nat) (f : unknown -> R) : Prop :=
  forall i v p, component pl vi i v -> In p (is_points lg (pv_space v)) -> s (at_point v p) = Some (f (i, p)).
Definition real_value (m : matrix (option R)) (kp : point) : R := match value m kp with Some r => r | None => 0%R end.
Definition real_entries (cs : list (setup_call (option R))) : Prop :=
  forall m d r, In (m, d, r) (mats_of cs) -> forall kp, In kp (positions m) -> value m kp <> None.
(** the coefficient of unknown [v] in equation [u]: all stored entries in that row and column, of all matrices *)
Definition operator (cs : list (setup_call (option R))) (u v : unknown) : R :=
  Rsum (fun mdr => let '(m, d, r) := mdr in
    if (r =? fst u) && (d =? fst v)
    then Rsum (fun kp => if in_row m (snd u) kp && (if point_eq_dec (column m kp) (snd v) then true else false) then real_value m kp else 0%R) (positions m)
    else 0%R) (mats_of cs).
Definition apply_op (us : list unknown) (a : unknown -> unknown -> R) (x : unknown -> R) (u : unknown) : R :=
  Rsum (fun v => a u v * x v)%R us.

Lemma Rsum_indicator {P} (dec : forall a b : P, {a = b} + {a <> b}) (f : P -> R) a l : NoDup l ->
  Rsum (fun v => if dec v a then f v else 0%R) l = if in_dec dec a l then f a else 0%R.
Proof.
  induction l as [|b l IH]; intros Hn; [rewrite Rsum_nil; reflexivity|]. inversion Hn; subst. rewrite Rsum_cons, IH by assumption.
  destruct (dec b a) as [->|Hb].
  - destruct (in_dec dec a l) as [H|_]; [contradiction|]. destruct (in_dec dec a (a :: l)) as [_|H]; [ring|exfalso; apply H; left; reflexivity].
  - destruct (in_dec dec a l) as [H|H]; destruct (in_dec dec a (b :: l)) as [K|K]; try ring; exfalso.
    + apply K. right. exact H.
    + destruct K as [K|K]; [congruence|contradiction].
Qed.
Definition unknown_dec (u v : unknown) : {u = v} + {u <> v}.
Proof. destruct u as [i p], v as [j q]. destruct (Nat.eq_dec i j) as [->|H]; [|right; congruence]. destruct (point_eq_dec p q) as [->|H]; [left; reflexivity|right; congruence]. Defined.
Lemma unknowns_nodup T lg (cs : list (setup_call T)) : legion_ok lg -> NoDup (unknowns lg cs).
Proof.
  intros Hlg. unfold unknowns. assert (G : forall l : list nat, NoDup l -> NoDup (flat_map (fun i => map (pair i) (is_points lg (space_of cs i))) l)).
  { induction l as [|i l IH]; intros Hn; cbn [flat_map]; [constructor|]. inversion Hn; subst. apply NoDup_app_intro.
    - apply FinFun.Injective_map_NoDup; [intros p q E; congruence|apply Hlg].
    - apply IH. assumption.
    - intros [j p] H3 H4. apply in_map_iff in H3. destruct H3 as [q [E _]]. injection E as <- <-.
      apply in_flat_map in H4. destruct H4 as [k [Hk H4]]. apply in_map_iff in H4. destruct H4 as [z [E _]]. injection E as <- <-. contradiction. }
  apply G. apply seq_NoDup.
Qed.
Lemma in_unknowns T lg (cs : list (setup_call T)) i p : In (i, p) (unknowns lg cs) <-> i < length (sols_of cs) /\ In p (is_points lg (space_of cs i)).
Proof.
  unfold unknowns. rewrite in_flat_map. split.
  - intros [j [Hj H]]. apply in_map_iff in H. destruct H as [q [E H]]. injection E as <- <-. apply in_seq in Hj. split; [lia|exact H].
  - intros [Hi Hp]. exists i. split; [apply in_seq; lia|apply in_map; exact Hp].
Qed.
Lemma Rsum_pull {P} (f : P -> R) (c : R) l : (Rsum f l * c = Rsum (fun p => f p * c) l)%R.
Proof. rewrite Rmult_comm, <- Rsum_scal. apply Rsum_ext. intros; ring. Qed.
(** block_product in exact arithmetic is the real operator *)
Lemma block_product_exact lg (cs : list (setup_call (option R))) x f i p : legion_ok lg -> real_entries cs ->
  (forall m d r, In (m, d, r) (mats_of cs) -> d < length (sols_of cs)) ->
  (forall d q, d < length (sols_of cs) -> In q (is_points lg (space_of cs d)) -> x d q = Some (f (d, q))) ->
  block_product exact lg cs x i p = Some (apply_op (unknowns lg cs) (operator cs) f (i, p)).
Proof.
  intros Hlg Hre Hdom Hx. unfold block_product, apply_op, operator.
  set (term := fun (u v : unknown) (mdr : matrix (option R) * nat * nat) => let '(m, d, r) := mdr in
    if (r =? fst u) && (d =? fst v)
    then Rsum (fun kp => if in_row m (snd u) kp && (if point_eq_dec (column m kp) (snd v) then true else false) then real_value m kp else 0%R) (positions m)
    else 0%R).
  change (Rsum (fun v => Rsum (fun mdr => let '(m, d, r) := mdr in _) (mats_of cs) * f v)%R (unknowns lg cs)) with
    (Rsum (fun v => Rsum (term (i, p) v) (mats_of cs) * f v)%R (unknowns lg cs)).
  rewrite (Rsum_ext _ (fun v => Rsum (fun mdr => term (i, p) v mdr * f v)%R (mats_of cs))) by (intros v _; apply Rsum_pull).
  rewrite Rsum_swap.
  assert (G : forall l y0, (forall m d r, In (m, d, r) l -> In (m, d, r) (mats_of cs)) ->
    fold_left (fun acc mdr => let '(m, d, r) := mdr in if r =? i then add_products exact m (x d) acc (row_entries lg m (space_of cs d) p) else acc) l (Some y0)
    = Some (y0 + Rsum (fun mdr => Rsum (fun v => term (i, p) v mdr * f v)%R (unknowns lg cs)) l)%R).
  { induction l as [|[[m d] r] l IH]; intros y0 Hl; [cbn [fold_left]; rewrite Rsum_nil; f_equal; ring|]. cbn [fold_left]. rewrite Rsum_cons.
    assert (Hin : In (m, d, r) (mats_of cs)) by (apply Hl; left; reflexivity).
    assert (Hd : d < length (sols_of cs)) by (eapply Hdom; exact Hin).
    assert (E : (if r =? i then add_products exact m (x d) (Some y0) (row_entries lg m (space_of cs d) p) else Some y0) =
      Some (y0 + Rsum (fun v => term (i, p) v (m, d, r) * f v)%R (unknowns lg cs))%R).
    { unfold term. cbn [fst snd]. destruct (r =? i) eqn:Er.
      - rewrite (@add_products_exact m (x d) (Some y0) (row_entries lg m (space_of cs d) p) (fun q => f (d, q)) (real_value m) y0 eq_refl).
        + f_equal. f_equal. unfold row_entries. rewrite Rsum_filter.
          transitivity (Rsum (fun v => Rsum (fun kp => (if (d =? fst v) && (in_row m p kp && (if point_eq_dec (column m kp) (snd v) then true else false)) then real_value m kp else 0) * f v)%R (positions m)) (unknowns lg cs)).
          2:{ apply Rsum_ext. intros v _. cbn [andb]. destruct (d =? fst v); cbn [andb]; [rewrite Rsum_pull; reflexivity|].
              transitivity (Rsum (fun _ : point => 0%R) (positions m)); [apply Rsum_ext; intros; ring|]. rewrite Rsum_zero. ring. }
          rewrite Rsum_swap. apply Rsum_ext. intros kp Hk.
          transitivity (Rsum (fun v => if unknown_dec v (d, column m kp) then (if in_row m p kp then real_value m kp * f v else 0)%R else 0%R) (unknowns lg cs)).
          2:{ apply Rsum_ext. intros [j q] _. cbn [fst snd]. destruct (unknown_dec (j, q) (d, column m kp)) as [E|E].
              - injection E as -> ->. rewrite Nat.eqb_refl. destruct (point_eq_dec (column m kp) (column m kp)); [|congruence]. rewrite andb_true_r. cbn [andb].
                destruct (in_row m p kp); ring.
              - destruct (d =? j) eqn:Edj; cbn [andb]; [|ring]. apply Nat.eqb_eq in Edj. destruct (point_eq_dec (column m kp) q) as [Eq|Eq]; [|rewrite andb_false_r; ring].
                exfalso. apply E. congruence. }
          rewrite (Rsum_indicator unknown_dec (fun v => if in_row m p kp then real_value m kp * f v else 0)%R) by (apply unknowns_nodup; exact Hlg).
          destruct (in_dec unknown_dec (d, column m kp) (unknowns lg cs)) as [H|H]; rewrite in_unknowns in H.
          * destruct H as [_ H]. apply mem_spec in H. rewrite H, andb_true_r. reflexivity.
          * assert (Hm : mem (column m kp) (is_points lg (space_of cs d)) = false) by (apply mem_false; tauto). rewrite Hm, andb_false_r. reflexivity.
        + intros kp Hk. unfold row_entries in Hk. apply filter_In in Hk. destruct Hk as [Hk Hb]. apply andb_true_iff in Hb. destruct Hb as [_ Hb]. apply mem_spec in Hb.
          split; [|apply Hx; assumption]. unfold real_value. assert (X := Hre _ _ _ Hin kp Hk). destruct (value m kp); [reflexivity|congruence].
      - f_equal. transitivity (y0 + 0)%R; [ring|]. f_equal. transitivity (Rsum (fun _ : unknown => 0%R) (unknowns lg cs)); [symmetry; apply Rsum_zero|]. apply Rsum_ext. intros v _. cbn [andb]. ring. }
    rewrite E, IH by (intros m' d' r' H'; apply Hl; right; exact H'). f_equal. ring. }
  cbn [exact a0]. rewrite G by auto. f_equal. ring.
Qed.
Lemma mats_domain T lg (cs : list (setup_call T)) nw pl : working lg cs nw pl -> forall m d r, In (m, d, r) (mats_of cs) -> d < length (sols_of cs) /\ r < length (sols_of cs).
Proof.
  intros Hw m d r H. destruct (working_ready Hw) as [R [Em _]]. rewrite <- Em in H. apply in_map_iff in H. destruct H as [pm [E H]].
  injection E as <- <- <-. destruct (rd_mats R pm H) as [_ [H1 [H2 _]]]. auto.
Qed.
Theorem C16_planner_matvec_exact : forall (lg : legion) (cs : list (setup_call (option R))) (nw : nat) (pl : planner (option R)) (dst src : nat) st s st' s' x,
  legion_ok lg -> working lg cs nw pl -> real_entries cs -> dst < 2 + nw -> src < 2 + nw -> dst <> src ->
  ends (pl_matvec exact lg pl dst src) st s tt st' s' -> vector_is lg pl s src x ->
  vector_is lg pl s' dst (apply_op (unknowns lg cs) (operator cs) x) /\
  forall vi y, vi < 2 + nw -> vi <> dst -> vector_is lg pl s vi y -> vector_is lg pl s' vi y.
Proof.
  intros lg cs nw pl dst src st s st' s' x Hlg Hw Hre Hd Hs Hne He Hx.
  destruct (@C16_planner_matvec _ exact lg cs nw pl dst src Hlg Hw Hd Hs Hne) as [_ U].
  destruct (working_ready Hw) as [R _].
  set (xs := fun d q => s (cell pl src d q)).
  destruct (U st s st' s' xs He) as [U1 U2].
  { intros d w q Hc _. apply (component_iff Hw d w Hs) in Hc. destruct Hc as [_ ->]. reflexivity. }
  split.
  - intros i v p Hc Hp. rewrite (U1 i v p Hc Hp). apply block_product_exact; auto.
    + intros m d r Hin. apply (mats_domain Hw m d r Hin).
    + intros d q Hdn Hq. unfold xs. unfold cell. apply Hx; [apply (component_iff Hw); auto|]. rewrite (vec_space R) by assumption.
      rewrite (pts_space Hw) by assumption. exact Hq.
  - intros vi y Hvi Hvd Hy i v p Hc Hp. rewrite U2; [apply Hy; assumption|]. intros Hof. apply (of_vector_iff Hw _ Hd) in Hof.
    apply (component_iff Hw i v Hvi) in Hc. destruct Hc as [Hi ->]. revert Hof. change (at_point (vec pl vi i) p) with (cell pl vi i p). apply (other_cell R); auto.
Qed.

(** ** C17.  Component-wise operations *)
Inductive planner_op := PZero (dst : nat) | PCopy (dst src : nat) | PScal (dst f : nat) | PAxpy (dst : nat) (fs : list nat) (src : nat) | PXpay (dst : nat) (fs : list nat) (src : nat).
Definition destination (op : planner_op) : nat := match op with PZero d | PCopy d _ | PScal d _ | PAxpy d _ _ | PXpay d _ _ => d end.
Definition run_op {T} (A : arith T) (lg : legion) (pl : planner T) (op : planner_op) : M T unit :=
  match op with
  | PZero d => pl_zero_fill A lg pl d
  | PCopy d x => pl_copy A lg pl d x
  | PScal d f => pl_scal A lg pl d f
  | PAxpy d fs x => pl_axpy A lg pl d fs x
  | PXpay d fs x => pl_xpay A lg pl d fs x
  end.
(** vectors exist, source and destination differ, and there are at most as many factors as the API takes *)
Definition op_ok (nv : nat) (op : planner_op) : Prop :=
  match op with
  | PZero d => d < nv
  | PCopy d x => d < nv /\ x < nv /\ d <> x
  | PScal d _ => d < nv
  | PAxpy d fs x | PXpay d fs x => d < nv /\ x < nv /\ d <> x /\ length fs <= 4
  end.
(** the single-vector operation that [op] means on component [i], whose destination vector is [y] *)
Inductive on_component {T} (pl : planner T) (i : nat) : planner_op -> pvec -> vop T -> Prop :=
| oc_zero d y : component pl d i y -> on_component pl i (PZero d) y ZeroFill
| oc_copy d x y w : component pl d i y -> component pl x i w -> on_component pl i (PCopy d x) y (Copy w)
| oc_scal d f y : component pl d i y -> on_component pl i (PScal d f) y (Scal [f])
| oc_axpy d fs x y w : component pl d i y -> component pl x i w -> on_component pl i (PAxpy d fs x) y (Axpy fs w)
| oc_xpay d fs x y w : component pl d i y -> component pl x i w -> on_component pl i (PXpay d fs x) y (Xpay fs w).
Lemma alpha_of_coefficient T (A : arith T) s fs : length fs <= 4 -> coefficient A (map (fun f => s (LFut f)) fs) (alpha_of A s fs).
Proof.
  intros H. destruct (@alpha_ok_get T A fs (proj2 (Nat.leb_le _ _) H) s) as [al Hal]. unfold alpha_of. rewrite Hal. apply get_alpha_coefficient. exact Hal.
Qed.
Ltac name_components Hw := repeat match goal with K : component _ ?j ?i ?v, Hj : ?j < _ |- _ =>
  apply (component_iff Hw i v Hj) in K; destruct K as [_ K]; subst v end.
Theorem C17_componentwise : forall (T : Type) (A : arith T) (lg : legion) (cs : list (setup_call T)) (nw : nat) (pl : planner T) (op : planner_op),
  legion_ok lg -> working lg cs nw pl -> op_ok (2 + nw) op ->
  (forall st, accepted (run_op A lg pl op) st) /\
  (forall st s st' s', ends (run_op A lg pl op) st s tt st' s' ->
    (forall i y vo p, on_component pl i op y vo -> In p (is_points lg (pv_space y)) -> new_entry A s y p vo (s' (at_point y p))) /\
    (forall l, ~ of_vector lg pl (destination op) l -> s' l = s l)).
Proof.
  intros T A lg cs nw pl op Hlg Hw Hok. destruct (working_ready Hw) as [R _].
  assert (Hd : destination op < 2 + nw) by (destruct op; cbn in Hok |- *; tauto).
  assert (W : exists g : store loc T -> nat -> point -> T, forall s,
    (forall i y vo p, on_component pl i op y vo -> new_entry A s y p vo (g s i p)) /\
    (forall (Q : unit -> ist -> store loc T -> Prop) st, (forall s', updates lg pl (length (sols_of cs)) (destination op) (g s) s s' -> Q tt st s') -> wp (run_op A lg pl op) Q st s)).
  { destruct op as [d|d x|d f|d fs x|d fs x]; cbn [op_ok destination run_op] in *.
    - exists (fun _ _ _ => a0 A). intros s. split; [intros i y vo p H; inversion H; subst; constructor|].
      intros Q st H. apply (wp_zero_fill A Hlg R); assumption.
    - destruct Hok as [_ [Hx Hne]]. exists (fun s i p => s (cell pl x i p)). intros s. split.
      + intros i y vo p H. inversion H; subst; name_components Hw. constructor.
      + intros Q st H. apply (wp_copy A Hlg R); assumption.
    - exists (fun s i p => amul A (s (LFut f)) (s (cell pl d i p))). intros s. split.
      + intros i y vo p H. inversion H; subst; name_components Hw. constructor. constructor.
      + intros Q st H. apply (wp_scal A Hlg R); assumption.
    - destruct Hok as [_ [Hx [Hne Hfs]]]. exists (fun s i p => afma A (alpha_of A s fs) (s (cell pl x i p)) (s (cell pl d i p))). intros s. split.
      + intros i y vo p H. inversion H; subst; name_components Hw. constructor. apply alpha_of_coefficient. exact Hfs.
      + intros Q st H. apply (wp_axpy A Hlg R); assumption.
    - destruct Hok as [_ [Hx [Hne Hfs]]]. exists (fun s i p => afma A (alpha_of A s fs) (s (cell pl d i p)) (s (cell pl x i p))). intros s. split.
      + intros i y vo p H. inversion H; subst; name_components Hw. constructor. apply alpha_of_coefficient. exact Hfs.
      + intros Q st H. apply (wp_xpay A Hlg R); assumption. }
  destruct W as [g W]. split.
  - intros st. apply (@wp_accepted T unit _ (fun _ _ _ => True) st (fun _ => a0 A)). apply (proj2 (W _)). auto.
  - intros st s st' s' He. destruct (W s) as [Hg Hwp].
    destruct (@wp_ends T unit _ _ st s tt st' s' (Hwp (fun _ _ s1 => updates lg pl (length (sols_of cs)) (destination op) (g s) s s1) st (fun s1 H => H)) He) as [s1 [[U1 U2] E]].
    split.
    + intros i y vo p Hon Hp. assert (Hcy : component pl (destination op) i y) by (inversion Hon; subst; assumption).
      rewrite (component_points Hw Hd Hcy) in Hp. destruct (proj1 (component_iff Hw i y Hd) Hcy) as [Hi Ey].
      rewrite E. assert (Ey2 : at_point y p = cell pl (destination op) i p) by (rewrite Ey; reflexivity). rewrite Ey2, (U1 i p Hi Hp). apply Hg. exact Hon.
    + intros l Hl. rewrite E. apply U2. intros Hin. apply Hl. apply (of_vector_iff Hw l Hd). exact Hin.
Qed.

(** dot: the component values, each a reduction of the piece results, summed from component 0 upwards; only
    futures created by the call are written. *)
Theorem C17_dot : forall (T : Type) (A : arith T) (lg : legion) (reduction : nat -> list T -> T) (cs : list (setup_call T)) (nw : nat) (pl : planner T) (vi wi : nat),
  legion_ok lg -> working lg cs nw pl -> 0 < length (sols_of cs) -> vi < 2 + nw -> wi < 2 + nw ->
  (forall st, accepted (pl_dot A lg reduction pl vi wi) st) /\
  (forall st s f st' s', ends (pl_dot A lg reduction pl vi wi) st s f st' s' ->
    (exists d0 ds, s' (LFut f) = fold_left (aadd A) ds d0 /\
       Forall2 (fun i d => exists v w m, component pl vi i v /\ component pl wi i w /\
                  d = reduction m (map (partial_dot A s v w) (part_pieces lg (pv_part v))))
         (seq 0 (length (sols_of cs))) (d0 :: ds)) /\
    next_fut st <= f < next_fut st' /\
    (forall v p, s' (at_point v p) = s (at_point v p)) /\
    (forall k, k < next_fut st -> s' (LFut k) = s (LFut k))).
Proof.
  intros T A lg reduction cs nw pl vi wi Hlg Hw Hn Hv Hwi. destruct (working_ready Hw) as [R _]. split.
  - intros st. apply (@wp_accepted T nat _ (fun _ _ _ => True) st (fun _ => a0 A)). apply (wp_dot R); auto.
  - intros st s f st' s' He.
    assert (W : wp (pl_dot A lg reduction pl vi wi) (fun f st' s' => next_fut st <= f /\ f < next_fut st' /\ frame_fut st s s' /\ dot_value A lg reduction pl (length (sols_of cs)) s vi wi (s' (LFut f))) st s).
    { apply (wp_dot R); auto. }
    destruct (wp_ends W He) as [s1 [[U1 [U2 [U3 U4]]] E]]. split.
    + destruct U4 as [d0 [ds [D1 D2]]]. exists d0, ds. rewrite E. split; [exact D1|].
      assert (G : forall l l2, (forall i, In i l -> i < length (sols_of cs)) -> Forall2 (component_value A lg reduction pl s vi wi) l l2 ->
        Forall2 (fun i d => exists v w m, component pl vi i v /\ component pl wi i w /\ d = reduction m (map (partial_dot A s v w) (part_pieces lg (pv_part v)))) l l2).
      { clear -Hw Hv Hwi. intros l l2 Hl H. induction H as [|i d l l2 [m Hm] H IH]; constructor.
        - exists (vec pl vi i), (vec pl wi i), m. assert (Hi : i < length (sols_of cs)) by (apply Hl; left; reflexivity).
          split; [apply (component_iff Hw); auto|]. split; [apply (component_iff Hw); auto|]. exact Hm.
        - apply IH. intros j Hj. apply Hl. right; exact Hj. }
      apply G; [|exact D2]. intros i Hi. apply in_seq in Hi. lia.
    + split; [lia|]. split.
      * intros v p. rewrite E. apply U3. intros m _. split; [discriminate|intros c; discriminate].
      * intros k Hk. rewrite E. apply (frame_fut_old U3). exact Hk.
Qed.
(** exact value of the planner dot *)
Lemma dot_value_exact lg red (pl : planner (option R)) cs nw s vi wi d f g : legion_ok lg -> legal_reduction exact red -> working lg cs nw pl ->
  vi < 2 + nw -> wi < 2 + nw -> vector_is lg pl s vi f -> vector_is lg pl s wi g ->
  dot_value exact lg red pl (length (sols_of cs)) s vi wi d -> d = Some (Rsum (fun u => f u * g u)%R (unknowns lg cs)).
Proof.
  intros Hlg Hred Hw Hv Hwi Hf Hg [d0 [ds [-> D]]]. destruct (working_ready Hw) as [R _].
  assert (V : forall i d, i < length (sols_of cs) -> component_value exact lg red pl s vi wi i d -> d = Some (Rsum (fun p => f (i, p) * g (i, p))%R (is_points lg (space_of cs i)))).
  { intros i e Hi [m ->]. rewrite (reduces_to_exact (Hred _ _)).
    assert (E : map (partial_dot exact s (vec pl vi i) (vec pl wi i)) (pieces lg (vec pl vi i)) = map osum (map (map (fun p => lift2 Rmult (s (cell pl vi i p)) (s (cell pl wi i p)))) (pieces lg (vec pl vi i)))).
    { rewrite map_map. apply map_ext. intros piece. apply partial_dot_exact. }
    rewrite E, <- osum_concat, <- concat_map. rewrite (osum_perm (Permutation_map _ (constructed_perm Hlg (rd_constructed R Hv Hi)))).
    rewrite (vec_space R Hv Hi), (pts_space Hw Hi). rewrite <- osum_some. f_equal. apply map_ext_in. intros p Hp.
    unfold space_of in Hp. rewrite <- (pts_space Hw Hi) in Hp.
    unfold cell. rewrite (Hf i (vec pl vi i) p), (Hg i (vec pl wi i) p); [reflexivity| | | |]; try (apply (component_iff Hw); auto); rewrite (vec_space R); assumption. }
  assert (G : forall l l2, (forall i, In i l -> i < length (sols_of cs)) -> Forall2 (component_value exact lg red pl s vi wi) l l2 ->
     forall a, fold_left (aadd exact) l2 (Some a) = Some (a + Rsum (fun i => Rsum (fun p => f (i, p) * g (i, p))%R (is_points lg (space_of cs i))) l)%R).
  { intros l l2 Hl H. induction H as [|i e l l2 Hm H IH]; intros a; [cbn [fold_left]; rewrite Rsum_nil; f_equal; ring|].
    cbn [fold_left]. rewrite (V i e (Hl i (or_introl eq_refl)) Hm). cbn [exact aadd lift2]. rewrite IH by (intros j Hj; apply Hl; right; exact Hj). rewrite Rsum_cons. f_equal. ring. }
  assert (Hseq : forall i, In i (seq 0 (length (sols_of cs))) -> i < length (sols_of cs)) by (intros i Hi; apply in_seq in Hi; lia).
  assert (G2 := G _ _ Hseq D 0%R). cbn [fold_left] in G2.
  assert (E0 : aadd exact (Some 0%R) d0 = d0) by apply oplus_0_l. rewrite E0 in G2. rewrite G2. f_equal. unfold unknowns. rewrite Rsum_flat_map. rewrite Rplus_0_l.
  apply Rsum_ext. intros i _. rewrite Rsum_map. reflexivity.
Qed.
Theorem C17_dot_exact : forall (lg : legion) red (cs : list (setup_call (option R))) (nw : nat) (pl : planner (option R)) (vi wi : nat) st s k st' s' f g,
  legion_ok lg -> legal_reduction exact red -> working lg cs nw pl -> 0 < length (sols_of cs) -> vi < 2 + nw -> wi < 2 + nw ->
  ends (pl_dot exact lg red pl vi wi) st s k st' s' -> vector_is lg pl s vi f -> vector_is lg pl s wi g ->
  s' (LFut k) = Some (Rsum (fun u => f u * g u)%R (unknowns lg cs)).
Proof.
  intros lg red cs nw pl vi wi st s k st' s' f g Hlg Hred Hw Hn Hv Hwi He Hf Hg. destruct (working_ready Hw) as [R _].
  assert (W : wp (pl_dot exact lg red pl vi wi) (fun k _ s1 => dot_value exact lg red pl (length (sols_of cs)) s vi wi (s1 (LFut k))) st s).
  { apply (wp_dot R); auto. }
  destruct (wp_ends W He) as [s1 [U E]]. rewrite E. exact (@dot_value_exact lg red pl cs nw s vi wi _ f g Hlg Hred Hw Hv Hwi Hf Hg U).
Qed.

(** ** C53.  Program order.  Any sequence of planner operations, whose tasks the runtime executes as soon as their
    dependences allow, ends in exactly the states that executing the operations one after the other, waiting for
    each to finish before issuing the next, can end in; in particular there is only one. *)
Inductive stmt (T : Type) := SOp (op : planner_op) | SMatvec (dst src : nat) | SDot (v w : nat) | SScalar (args : list nat) (f : list T -> T).
Arguments SOp {T}.
Arguments SMatvec {T}.
Arguments SDot {T}.
Section Statements.
Variable T : Type.
Variable A : arith T.
Variable lg : legion.
Variable red : nat -> list T -> T.
Variable pl : planner T.
Definition run_stmt (x : stmt T) : M T unit :=
  match x with
  | SOp op => run_op A lg pl op
  | SMatvec d s => pl_matvec A lg pl d s
  | SDot v w => let* _ := pl_dot A lg red pl v w in ret tt
  | SScalar args f => let* _ := scalar_task args f in ret tt
  end.
Definition stmt_ok (nv : nat) (x : stmt T) : Prop :=
  match x with SOp op => op_ok nv op | SMatvec d s => d < nv /\ s < nv /\ d <> s | SDot v w => v < nv /\ w < nv | SScalar _ _ => True end.
(** issue everything, then let the runtime finish *)
Fixpoint run_stmts (xs : list (stmt T)) : M T unit :=
  match xs with [] => ret tt | x :: rest => run_stmt x ;; run_stmts rest end.
(** wait after every statement *)
Inductive one_at_a_time : list (stmt T) -> ist -> store loc T -> ist -> store loc T -> Prop :=
| oat_nil st s s' : (forall l, s' l = s l) -> one_at_a_time [] st s st s'
| oat_cons x rest st st1 st2 s s1 s2 : ends (run_stmt x) st s tt st1 s1 -> one_at_a_time rest st1 s1 st2 s2 -> one_at_a_time (x :: rest) st s st2 s2.
Definition issues_good {X} (m : M T X) : Prop := forall st, exists x lns st', m st = Ok (x, lns, st') /\ Forall good_launch lns.
Lemma wp_issues_good X (m : M T X) : (forall st s, wp m (fun _ _ _ => True) st s) -> issues_good m.
Proof. intros H st. destruct (H st (fun _ => a0 A)) as [x [lns [st' [H1 [H2 _]]]]]. exists x, lns, st'. auto. Qed.
Lemma effect_ext (lns : list (launch T)) s s' : (forall l, s l = s' l) -> forall l, effect lns s l = effect lns s' l.
Proof.
  unfold effect. intros H. generalize (sequential (map (@op_of T) lns)) as tr. intros tr. revert s s' H. induction tr as [|x tr IH]; intros s s' H l; [apply H|].
  unfold run in *. cbn [fold_left]. apply IH. intros l'. unfold exec, upd. destruct (loc_dec l' (tgt x)); [|apply H]. f_equal. apply map_ext. intros k. apply H.
Qed.
Lemma ends_effect X (m : M T X) st x lns st1 : m st = Ok (x, lns, st1) -> Forall good_launch lns -> forall s x' st' s',
  ends m st s x' st' s' <-> x' = x /\ st' = st1 /\ forall l, s' l = effect lns s l.
Proof.
  intros H Hg s x' st' s'. split.
  - intros [lns' [H' He]]. rewrite H in H'. injection H' as <- <- <-. split; [reflexivity|]. split; [reflexivity|]. apply launches_end_effect; assumption.
  - intros [-> [-> E]]. exists lns. split; [exact H|]. destruct (some_end lns s) as [s2 [tr [Hx Hs]]]. exists tr. split; [exact Hx|].
    intros l. rewrite E. symmetry. apply executions_equal_effect; assumption.
Qed.
Lemma stmt_good cs nw x : legion_ok lg -> working lg cs nw pl -> 0 < length (sols_of cs) -> stmt_ok (2 + nw) x -> issues_good (run_stmt x).
Proof.
  intros Hlg Hw Hn Hok. destruct (working_ready Hw) as [R _]. apply wp_issues_good. intros st s. destruct x as [op|d v|v w|args f]; cbn [run_stmt stmt_ok] in *.
  - destruct op as [d|d x|d f|d fs x|d fs x]; cbn [op_ok run_op] in *.
    + apply (wp_zero_fill A Hlg R); auto.
    + apply (wp_copy A Hlg R); tauto.
    + apply (wp_scal A Hlg R); auto.
    + apply (wp_axpy A Hlg R); tauto.
    + apply (wp_xpay A Hlg R); tauto.
  - apply (wp_matvec Hlg R); tauto.
  - apply wp_bind. apply (wp_dot R); try tauto. intros. apply wp_ret. exact I.
  - apply wp_bind. apply wp_scalar_task. intros. apply wp_ret. exact I.
Qed.
End Statements.
Theorem C53_program_order : forall (T : Type) (A : arith T) (lg : legion) red (cs : list (setup_call T)) (nw : nat) (pl : planner T) (xs : list (stmt T)),
  legion_ok lg -> working lg cs nw pl -> 0 < length (sols_of cs) -> (forall x, In x xs -> stmt_ok (2 + nw) x) ->
  (forall st, accepted (run_stmts A lg red pl xs) st) /\
  (forall st s st' s', ends (run_stmts A lg red pl xs) st s tt st' s' <-> one_at_a_time A lg red pl xs st s st' s') /\
  (forall st s st1 s1 st2 s2, ends (run_stmts A lg red pl xs) st s tt st1 s1 -> ends (run_stmts A lg red pl xs) st s tt st2 s2 ->
     st1 = st2 /\ forall l, s1 l = s2 l).
Proof.
  intros T A lg red cs nw pl xs Hlg Hw Hn Hok.
  assert (G : forall st, exists lns st', run_stmts A lg red pl xs st = Ok (tt, lns, st') /\ Forall good_launch lns /\
     forall s st2 s2, one_at_a_time A lg red pl xs st s st2 s2 <-> st2 = st' /\ forall l, s2 l = effect lns s l).
  { induction xs as [|x xs IH]; intros st.
    - exists [], st. split; [reflexivity|]. split; [constructor|]. intros s st2 s2. rewrite effect_nil. split.
      + intros H. inversion H; subst. auto.
      + intros [-> H]. constructor. exact H.
    - destruct (@stmt_good T A lg red pl cs nw x Hlg Hw Hn (Hok x (or_introl eq_refl)) st) as [[] [l1 [st1 [H1 G1]]]].
      destruct (IH (fun y Hy => Hok y (or_intror Hy)) st1) as [l2 [st2 [H2 [G2 IH2]]]].
      exists (l1 ++ l2), st2. split; [cbn [run_stmts]; unfold bind; rewrite H1; cbn [obind]; rewrite H2; reflexivity|].
      split; [apply Forall_app; auto|]. intros s st3 s3. rewrite effect_app. split.
      + intros H. inversion H as [|? ? ? ? ? ? ? ? K1 K2]; subst. apply (@ends_effect T unit (run_stmt A lg red pl x) st tt l1 st1 H1 G1) in K1. destruct K1 as [_ [-> E]]. apply IH2 in K2. destruct K2 as [-> E2].
        split; [reflexivity|]. intros l. rewrite E2. apply effect_ext. exact E.
      + intros [-> E]. apply oat_cons with (st1 := st1) (s1 := effect l1 s); [apply (@ends_effect T unit (run_stmt A lg red pl x) st tt l1 st1 H1 G1); auto|]. apply IH2. auto. }
  split; [intros st; destruct (G st) as [lns [st' [H _]]]; eexists; exact H|]. split.
  - intros st s st' s'. destruct (G st) as [lns [st1 [H [Hg Ho]]]]. rewrite (Ho s st' s'), (@ends_effect T unit (run_stmts A lg red pl xs) st tt _ _ H Hg). tauto.
  - intros st s st1 s1 st2 s2 E1 E2. destruct (G st) as [lns [st3 [H [Hg _]]]]. apply (@ends_effect T unit (run_stmts A lg red pl xs) st tt _ _ H Hg) in E1. apply (@ends_effect T unit (run_stmts A lg red pl xs) st tt _ _ H Hg) in E2.
    destruct E1 as [_ [-> E1]]. destruct E2 as [_ [-> E2]]. split; [reflexivity|]. intros l. rewrite E1, E2. reflexivity.
Qed.

(** ** A concrete system: two components on a two-point space, three matrices (COO and CSR) added in two places. *)
Definition ex_calls : list (setup_call (option R)) :=
  [AddSol (v2 3 10); AddRhs (v2 3 20); AddRhs (v2 3 21); AddSol (v2 3 11);
   AddMatrix (COO m2_coo) 0 0; AddMatrix (CSR m2_csr) 1 1; AddMatrix (COO m2_coo) 1 0].
Definition ex_st : ist := mk_ist 0 100.
Lemma m2_disjoint : rows_disjoint lg2 m2_csr.
Proof. apply C09_C10_example. Qed.
Lemma ex_well_formed : well_formed lg2 ex_calls ex_st.
Proof.
  constructor.
  - cbn. intros v [<-|[<-|[<-|[<-|[]]]]]; (split; [|cbn; lia]); eexists 3, _, 0; reflexivity.
  - cbn. repeat (constructor; [cbn; intuition discriminate|]). constructor.
  - reflexivity.
  - cbn. intros m d r [E|[E|[E|[]]]]; injection E as <- <- <-; cbn; auto. exact m2_disjoint.
Qed.
Lemma ex_legal : legal ex_calls.
Proof.
  intros before c after E. unfold ex_calls in E.
  do 7 (destruct before as [|? before]; cbn [app] in E; [injection E as <- <-; cbn [allowed sols_of rhss_of flat_map app length nth_error m2_csr cs_rows];
    repeat split; try lia; intros; repeat match goal with Hw : _ = Some _ |- _ => try discriminate Hw; injection Hw as <- end; auto|injection E as <- E]).
  destruct before; discriminate.
Qed.
Ltac eval_ifs := repeat match goal with |- context [if ?b then _ else _] =>
  match type of b with bool => let v := eval vm_compute in b in change b with v; cbv iota end end.
Lemma ex_operator_row : apply_op (unknowns lg2 ex_calls) (operator ex_calls) (fun u => match u with (i, [p]%Z) => INR i + IZR p + 1 | _ => 0 end)%R (0, [1]%Z) = 7%R.
Proof.
  unfold apply_op, operator. change (mats_of ex_calls) with [(COO m2_coo, 0, 0); (CSR m2_csr, 1, 1); (COO m2_coo, 1, 0)].
  change (unknowns lg2 ex_calls) with [(0,[0]%Z);(0,[1]%Z);(1,[0]%Z);(1,[1]%Z)]. rewrite !Rsum_cons, !Rsum_nil.
  cbv beta iota. eval_ifs. unfold real_value.
  change (positions (COO m2_coo)) with [[0];[1];[2];[3]]%Z. change (positions (CSR m2_csr)) with [[0];[1];[2];[3]]%Z. rewrite !Rsum_cons, !Rsum_nil.
  cbv beta iota. cbn [fst snd]. cbn [value m2_coo m2_csr co_entry]. eval_ifs. cbn [INR]. lra.
Qed.
Example C16_C18_example : legal ex_calls /\ real_entries ex_calls /\
  exists pl0 pl, set_up lg2 ex_calls ex_st pl0 /\ working lg2 ex_calls 3 pl /\
  (* an illegal continuation: index out of range *) ~ allowed ex_calls (AddMatrix (COO m2_coo) 2 0) /\
  (* the operator couples component 0 with component 1 *)
  apply_op (unknowns lg2 ex_calls) (operator ex_calls) (fun u => match u with (i, [p]%Z) => INR i + IZR p + 1 | _ => 0 end)%R (0, [1]%Z) = 7%R.
Proof.
  split; [exact ex_legal|].
  split.
  { intros m d r H kp Hk. cbn in H. destruct H as [E|[E|[E|[]]]]; injection E as <- <- <-; cbn in Hk; destruct Hk as [<-|[<-|[<-|[<-|[]]]]]; cbn; discriminate. }
  assert (Hl : legal ex_calls).
  { exact ex_legal. }
  assert (Hs : exists pl0, set_up lg2 ex_calls ex_st pl0).
  { destruct (@C18_legal_calls_accepted _ lg2 ex_calls) as [pl0 [E _]]; [| |exact Hl|exists pl0; split; [exact ex_well_formed|exact E]].
    - intros v Hv. apply (wf_vectors ex_well_formed v Hv).
    - intros m d r H. apply (wf_matrices ex_well_formed m d r H). }
  destruct Hs as [pl0 Hs]. exists pl0. destruct (@C18_allocate_workspace _ lg2 ex_calls 3 ex_st pl0 Hs) as [pl [st' [E _]]]. exists pl.
  split; [exact Hs|]. split; [exists ex_st, pl0, [], st'; split; [exact Hs|exact E]|].
  split; [cbn; lia|]. exact ex_operator_row.
Qed.
