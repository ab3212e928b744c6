(** PlannerSetup: the set-up protocol of SquarePlanner, and that a completed set-up is [ready]. *)
From Verif Require Import Base Index Outcome Sched Async Arith Launch Vector VectorFacts LaunchFacts Matrix MatrixSpec MatrixFacts
  MatvecFacts Builder BuilderFacts Planner PlannerFacts.
Set Implicit Arguments.

(** The set-up calls of a user program. *)
Inductive setup_call (T : Type) := AddSol (v : pvec) | AddRhs (v : pvec) | AddMatrix (m : matrix T) (domain_index range_index : nat).
Arguments AddSol {T}.
Arguments AddRhs {T}.
Definition do_call {T} (lg : legion) (pl : planner T) (c : setup_call T) : outcome (planner T) :=
  match c with
  | AddSol v => do r <- add_sol_vector lg pl v; Ok (fst r)
  | AddRhs v => do r <- add_rhs_vector lg pl v; Ok (fst r)
  | AddMatrix m d r => add_row_partitioned_matrix lg pl m d r
  end.
Fixpoint do_calls {T} (lg : legion) (pl : planner T) (cs : list (setup_call T)) : outcome (planner T) :=
  match cs with
  | [] => Ok pl
  | c :: rest => do pl' <- do_call lg pl c; do_calls lg pl' rest
  end.
Definition sols_of {T} (cs : list (setup_call T)) : list pvec := flat_map (fun c => match c with AddSol v => [v] | _ => [] end) cs.
Definition rhss_of {T} (cs : list (setup_call T)) : list pvec := flat_map (fun c => match c with AddRhs v => [v] | _ => [] end) cs.
Definition mats_of {T} (cs : list (setup_call T)) : list (matrix T * nat * nat) :=
  flat_map (fun c => match c with AddMatrix m d r => [(m, d, r)] | _ => [] end) cs.

(** the layout list of component vectors: for each index the space and partition of the solution component or,
    where there is none, of the right-hand-side component *)
Fixpoint merge {X} (a b : list X) : list X :=
  match a, b with
  | x :: a', _ :: b' => x :: merge a' b'
  | [], _ => b
  | _, [] => a
  end.
Definition layout (v : pvec) : nat * nat := (pv_space v, pv_part v).
Fixpoint compatible (a b : list pvec) : Prop :=
  match a, b with
  | x :: a', y :: b' => layout x = layout y /\ compatible a' b'
  | _, _ => True
  end.

Section Setup.
Variable T : Type.
Variable lg : legion.
Notation planner := (planner T).

(** what a planner without workspace looks like *)
Record pre (pl : planner) : Prop := mk_pre {
  pre_ws : pl_fields pl = false /\ pl_wregions pl = [] /\ pl_wparts pl = [] /\ pl_ws pl = [];
  pre_spaces : pl_spaces pl = map fst (merge (map layout (pl_sol pl)) (map layout (pl_rhs pl)));
  pre_parts : pl_parts pl = map snd (merge (map layout (pl_sol pl)) (map layout (pl_rhs pl)));
  pre_compat : compatible (pl_sol pl) (pl_rhs pl) }.

Lemma merge_length X (a b : list X) : length (merge a b) = Nat.max (length a) (length b).
Proof. revert b. induction a as [|x a IH]; intros [|y b]; cbn; try reflexivity; rewrite ?IH; lia. Qed.
Lemma compatible_sym a b : compatible a b -> compatible b a.
Proof. revert b. induction a as [|x a IH]; intros [|y b]; cbn; auto. intros [H1 H2]. split; [symmetry; exact H1|apply IH; exact H2]. Qed.
Lemma merge_comm a b : compatible a b -> merge (map layout a) (map layout b) = merge (map layout b) (map layout a).
Proof. revert b. induction a as [|x a IH]; intros [|y b]; cbn; auto. intros [H1 H2]. rewrite H1, IH; auto. Qed.
Lemma merge_snoc_short X (a b : list X) x : length a < length b -> (forall y, nth_error b (length a) = Some y -> x = y) ->
  merge (a ++ [x]) b = merge a b.
Proof.
  revert b. induction a as [|z a IH]; intros [|y b] Hl H; cbn in *; try lia.
  - rewrite (H y eq_refl). destruct b; reflexivity.
  - f_equal. apply IH; [lia|exact H].
Qed.
Lemma merge_snoc_long X (a b : list X) x : length b <= length a -> merge (a ++ [x]) b = merge a b ++ [x].
Proof.
  revert b. induction a as [|z a IH]; intros [|y b] Hl; cbn in *; try lia; try reflexivity.
  f_equal. apply IH. lia.
Qed.
Lemma merge_nth_r a b i : compatible a b -> length a <= i -> i < length b -> nth_error (merge (map layout a) (map layout b)) i = nth_error (map layout b) i.
Proof.
  revert b i. induction a as [|z a IH]; intros [|y b] i Hc H1 H2; cbn in *; try lia; try reflexivity.
  destruct i; [lia|]. cbn. apply IH; [apply Hc|lia|lia].
Qed.
Lemma merge_nth_l X (a b : list X) i : i < length a -> nth_error (merge a b) i = nth_error a i.
Proof.
  revert b i. induction a as [|z a IH]; intros [|y b] i H; cbn in *; try lia; try reflexivity.
  destruct i; [reflexivity|]. cbn. apply IH. lia.
Qed.
Lemma compatible_snoc a b x : compatible (a ++ [x]) b <->
  compatible a b /\ (forall y, nth_error b (length a) = Some y -> layout x = layout y).
Proof.
  revert b. induction a as [|z a IH]; intros [|y b]; cbn.
  - split; intros _; [split; [exact I|discriminate]|exact I].
  - split.
    + intros [H _]. split; [exact I|]. intros y0 E. injection E as <-. exact H.
    + intros [_ H]. split; [apply H; reflexivity|destruct b; exact I].
  - split; intros _; [split; [exact I|discriminate]|exact I].
  - rewrite IH. tauto.
Qed.

(** Registering a component: accepted exactly when it matches the other vector's component of the same index. *)
Lemma register_spec (pl : planner) (own other : list pvec) v :
  pl_spaces pl = map fst (merge (map layout own) (map layout other)) ->
  pl_parts pl = map snd (merge (map layout own) (map layout other)) ->
  compatible own other -> constructed lg v ->
  register_component lg pl (length own) v =
    if (match nth_error other (length own) with Some y => (pv_space y =? pv_space v) && (pv_part y =? pv_part v) | None => true end)
    then Ok (map fst (merge (map layout (own ++ [v])) (map layout other)), map snd (merge (map layout (own ++ [v])) (map layout other)))
    else AssertFail.
Proof.
  intros Es Ep Hc Hv. unfold register_component. rewrite Es, Ep, !nth_error_map_some. rewrite map_app. cbn [map].
  destruct (nth_error other (length own)) as [y|] eqn:Ey.
  - assert (Hlt : length own < length other) by (apply nth_error_Some; rewrite Ey; discriminate).
    rewrite (merge_nth_r own other Hc (le_n _) Hlt), nth_error_map_some, Ey. cbn [option_map layout fst snd].
    destruct (pv_space y =? pv_space v) eqn:E1; cbn [oassert obind andb]; [|reflexivity].
    destruct (pv_part y =? pv_part v) eqn:E2; cbn [oassert obind andb]; [|reflexivity].
    apply Nat.eqb_eq in E1. apply Nat.eqb_eq in E2.
    rewrite merge_snoc_short; [reflexivity|rewrite !map_length; exact Hlt|].
    intros z Hz. rewrite map_length, nth_error_map_some, Ey in Hz. cbn in Hz. injection Hz as <-. unfold layout. congruence.
  - assert (Hle : length other <= length own) by (apply nth_error_None; exact Ey).
    assert (Hl : length (merge (map layout own) (map layout other)) = length own) by (rewrite merge_length, !map_length; lia).
    rewrite (proj2 (nth_error_None _ _)) by (rewrite Hl; apply le_n). cbn [option_map].
    rewrite !map_length, Hl, Nat.eqb_refl. cbn [oassert obind].
    destruct Hv as [q [r [f Hq]]]. unfold make_vector, oassert in Hq.
    destruct (is_disjoint lg q) eqn:Ed; [|discriminate]. destruct (is_complete lg q) eqn:Ec; [|discriminate].
    injection Hq as <-. cbn [pv_part pv_space]. rewrite Ec, Ed. cbn [oassert obind].
    rewrite merge_snoc_long by (rewrite !map_length; exact Hle). rewrite !map_app. reflexivity.
Qed.

Definition same_layoutb (v : pvec) (o : option pvec) : bool :=
  match o with Some y => (pv_space y =? pv_space v) && (pv_part y =? pv_part v) | None => true end.
Lemma same_layoutb_spec v o : same_layoutb v o = true <-> (forall y, o = Some y -> layout v = layout y).
Proof.
  destruct o as [y|]; cbn.
  - rewrite andb_true_iff, !Nat.eqb_eq. split.
    + intros [H1 H2] z E. injection E as <-. unfold layout. congruence.
    + intros H. specialize (H y eq_refl). unfold layout in H. injection H as H1 H2. split; congruence.
  - split; [discriminate|reflexivity].
Qed.

Lemma no_workspace_pre pl : pre pl -> no_workspace pl = true.
Proof. intros [[H1 [H2 [H3 H4]]] _ _ _]. unfold no_workspace. rewrite H1, H2, H3, H4. reflexivity. Qed.

Lemma add_sol_spec pl v : pre pl -> constructed lg v ->
  (same_layoutb v (nth_error (pl_rhs pl) (length (pl_sol pl))) = true /\
   exists pl', add_sol_vector lg pl v = Ok (pl', length (pl_sol pl)) /\ pre pl' /\
     pl_sol pl' = pl_sol pl ++ [v] /\ pl_rhs pl' = pl_rhs pl /\ pl_mats pl' = pl_mats pl) \/
  (same_layoutb v (nth_error (pl_rhs pl) (length (pl_sol pl))) = false /\ add_sol_vector lg pl v = AssertFail).
Proof.
  intros Hp Hv. unfold add_sol_vector. rewrite (no_workspace_pre Hp). cbn [oassert].
  rewrite (register_spec pl (pl_sol pl) (pl_rhs pl) (pre_spaces Hp) (pre_parts Hp) (pre_compat Hp) Hv).
  fold (same_layoutb v (nth_error (pl_rhs pl) (length (pl_sol pl)))).
  destruct (same_layoutb v (nth_error (pl_rhs pl) (length (pl_sol pl)))) eqn:E; [left|right; split; reflexivity].
  split; [reflexivity|]. cbn [obind]. eexists. split; [reflexivity|]. cbn [pl_sol pl_rhs pl_mats].
  split; [|split; [reflexivity|split; reflexivity]].
  constructor; cbn [pl_fields pl_wregions pl_wparts pl_ws pl_spaces pl_parts pl_sol pl_rhs]; try reflexivity.
  - apply (pre_ws Hp).
  - apply compatible_snoc. split; [apply (pre_compat Hp)|]. apply same_layoutb_spec. exact E.
Qed.
Lemma add_rhs_spec pl v : pre pl -> constructed lg v ->
  (same_layoutb v (nth_error (pl_sol pl) (length (pl_rhs pl))) = true /\
   exists pl', add_rhs_vector lg pl v = Ok (pl', length (pl_rhs pl)) /\ pre pl' /\
     pl_rhs pl' = pl_rhs pl ++ [v] /\ pl_sol pl' = pl_sol pl /\ pl_mats pl' = pl_mats pl) \/
  (same_layoutb v (nth_error (pl_sol pl) (length (pl_rhs pl))) = false /\ add_rhs_vector lg pl v = AssertFail).
Proof.
  intros Hp Hv. unfold add_rhs_vector. rewrite (no_workspace_pre Hp). cbn [oassert].
  assert (Hc := compatible_sym _ _ (pre_compat Hp)).
  assert (Es := pre_spaces Hp). assert (Ep := pre_parts Hp). rewrite (merge_comm _ _ (pre_compat Hp)) in Es, Ep.
  rewrite (register_spec pl (pl_rhs pl) (pl_sol pl) Es Ep Hc Hv).
  fold (same_layoutb v (nth_error (pl_sol pl) (length (pl_rhs pl)))).
  destruct (same_layoutb v (nth_error (pl_sol pl) (length (pl_rhs pl)))) eqn:E; [left|right; split; reflexivity].
  split; [reflexivity|]. cbn [obind]. eexists. split; [reflexivity|]. cbn [pl_sol pl_rhs pl_mats].
  assert (Hc2 : compatible (pl_rhs pl ++ [v]) (pl_sol pl)).
  { apply compatible_snoc. split; [exact Hc|]. apply same_layoutb_spec. exact E. }
  split; [|split; [reflexivity|split; reflexivity]].
  constructor; cbn [pl_fields pl_wregions pl_wparts pl_ws pl_spaces pl_parts pl_sol pl_rhs].
  - apply (pre_ws Hp).
  - rewrite (merge_comm _ _ Hc2). reflexivity.
  - rewrite (merge_comm _ _ Hc2). reflexivity.
  - apply compatible_sym. exact Hc2.
Qed.

Lemma num_spaces_pre pl : pre pl -> get_num_spaces pl =
  if length (pl_sol pl) =? length (pl_rhs pl) then Ok (length (pl_sol pl)) else AssertFail.
Proof.
  intros Hp. unfold get_num_spaces. destruct (pre_ws Hp) as [_ [H2 [H3 H4]]]. rewrite H2, H3, H4. cbn [is_nil orb forallb].
  assert (L1 : length (pl_spaces pl) = Nat.max (length (pl_sol pl)) (length (pl_rhs pl))) by (rewrite (pre_spaces Hp), map_length, merge_length, !map_length; reflexivity).
  assert (L2 : length (pl_parts pl) = Nat.max (length (pl_sol pl)) (length (pl_rhs pl))) by (rewrite (pre_parts Hp), map_length, merge_length, !map_length; reflexivity).
  rewrite L1, L2, Nat.eqb_refl. cbn [oassert].
  destruct (length (pl_sol pl) =? length (pl_rhs pl)) eqn:E.
  - apply Nat.eqb_eq in E. rewrite <- E. rewrite Nat.max_id, Nat.eqb_refl. reflexivity.
  - apply Nat.eqb_neq in E. destruct (Nat.max (length (pl_sol pl)) (length (pl_rhs pl)) =? length (pl_sol pl)) eqn:E1; [|reflexivity].
    apply Nat.eqb_eq in E1. cbn [oassert]. destruct (Nat.max (length (pl_sol pl)) (length (pl_rhs pl)) =? length (pl_rhs pl)) eqn:E2; [|reflexivity].
    apply Nat.eqb_eq in E2. lia.
Qed.

Lemma pre_new : pre (new_planner T).
Proof. constructor; repeat split. Qed.

(** matrices registered so far *)
Definition mats_ok (pl : planner) (n : nat) : Prop := forall pm, In pm (pl_mats pl) ->
    matrix_ok lg (pm_matrix pm) /\ pm_domain pm < n /\ pm_range pm < n /\
    kernel_from_range lg (pm_matrix pm) (nth (pm_range pm) (pl_parts pl) 0) = Ok (pm_kernel pm) /\
    pm_ghost pm = domain_from_kernel lg (pm_matrix pm) (nth (pm_domain pm) (pl_spaces pl) 0) (pm_kernel pm).

(** the canonical lists of a planner only grow at the end *)
Lemma merge_snoc_prefix (a b : list pvec) v : compatible (a ++ [v]) b ->
  exists t, merge (map layout (a ++ [v])) (map layout b) = merge (map layout a) (map layout b) ++ t.
Proof.
  intros Hc. apply compatible_snoc in Hc. destruct Hc as [Hc Hv]. rewrite map_app. cbn [map].
  destruct (Nat.lt_ge_cases (length a) (length b)) as [H|H].
  - exists []. rewrite app_nil_r. apply merge_snoc_short; [rewrite !map_length; exact H|].
    intros y Hy. rewrite map_length, nth_error_map_some in Hy. destruct (nth_error b (length a)) as [z|] eqn:Ez; [|discriminate].
    cbn in Hy. injection Hy as <-. apply Hv. reflexivity.
  - exists [layout v]. apply merge_snoc_long. rewrite !map_length. exact H.
Qed.
Lemma mats_ok_grow (pl pl' : planner) n n' t1 t2 : mats_ok pl n -> n <= n' -> n <= length (pl_spaces pl) -> n <= length (pl_parts pl) ->
  pl_mats pl' = pl_mats pl -> pl_spaces pl' = pl_spaces pl ++ t1 -> pl_parts pl' = pl_parts pl ++ t2 -> mats_ok pl' n'.
Proof.
  intros H Hn L1 L2 Em Es Ep pm Hpm. rewrite Em in Hpm. destruct (H pm Hpm) as [M1 [M2 [M3 [M4 M5]]]].
  rewrite Es, Ep, !app_nth1 by lia. repeat split; auto; lia.
Qed.

(** The invariant of a set-up. *)
Definition min_len (pl : planner) : nat := Nat.max (length (pl_sol pl)) (length (pl_rhs pl)).
Theorem do_calls_spec (cs : list (setup_call T)) : forall pl pl',
  pre pl -> mats_ok pl (min_len pl) ->
  (forall v, In v (sols_of cs ++ rhss_of cs) -> constructed lg v) ->
  (forall m d r, In (m, d, r) (mats_of cs) -> matrix_ok lg m) ->
  do_calls lg pl cs = Ok pl' ->
  pre pl' /\ mats_ok pl' (min_len pl') /\ pl_sol pl' = pl_sol pl ++ sols_of cs /\ pl_rhs pl' = pl_rhs pl ++ rhss_of cs /\
  map (fun pm => (pm_matrix pm, pm_domain pm, pm_range pm)) (pl_mats pl') = map (fun pm => (pm_matrix pm, pm_domain pm, pm_range pm)) (pl_mats pl) ++ mats_of cs.
Proof.
  induction cs as [|c cs IH]; intros pl pl' Hp Hm Hv Hmm H.
  - cbn in H. injection H as <-. cbn. rewrite !app_nil_r. auto.
  - cbn [do_calls] in H. unfold obind at 1 in H. destruct (do_call lg pl c) as [pl1| | |] eqn:E; try discriminate.
    assert (Lsp : length (pl_spaces pl) = min_len pl) by (rewrite (pre_spaces Hp), map_length, merge_length, !map_length; reflexivity).
    assert (Lpa : length (pl_parts pl) = min_len pl) by (rewrite (pre_parts Hp), map_length, merge_length, !map_length; reflexivity).
    destruct c as [v|v|m d r]; cbn [do_call] in E.
    + assert (Hvv : constructed lg v) by (apply Hv; left; reflexivity).
      destruct (add_sol_spec Hp Hvv) as [[_ [pl2 [E2 [Hp2 [S2 [R2 M2]]]]]]|[_ E2]];
        rewrite E2 in E; [|discriminate]. cbn in E. injection E as <-.
      destruct (IH pl2 pl' Hp2) as [C1 [C2 [C3 [C4 C5]]]]; auto.
      * destruct (merge_snoc_prefix (pl_sol pl) (pl_rhs pl) v) as [t Et].
        { rewrite <- S2, <- R2. apply (pre_compat Hp2). }
        apply (@mats_ok_grow pl pl2 (min_len pl) (min_len pl2) (map fst t) (map snd t)); auto; try lia.
        -- unfold min_len. rewrite S2, R2, app_length. cbn. lia.
        -- rewrite (pre_spaces Hp2), S2, R2, Et, map_app, <- (pre_spaces Hp). reflexivity.
        -- rewrite (pre_parts Hp2), S2, R2, Et, map_app, <- (pre_parts Hp). reflexivity.
      * intros w Hw. apply Hv. cbn. right. exact Hw.
      * rewrite S2, <- app_assoc in C3. rewrite R2 in C4. rewrite M2 in C5. exact (conj C1 (conj C2 (conj C3 (conj C4 C5)))).
    + assert (Hvv : constructed lg v) by (apply Hv; cbn; apply in_or_app; right; left; reflexivity).
      destruct (add_rhs_spec Hp Hvv) as [[_ [pl2 [E2 [Hp2 [R2 [S2 M2]]]]]]|[_ E2]];
        rewrite E2 in E; [|discriminate]. cbn in E. injection E as <-.
      destruct (IH pl2 pl' Hp2) as [C1 [C2 [C3 [C4 C5]]]]; auto.
      * assert (Hc2 := compatible_sym _ _ (pre_compat Hp2)). rewrite S2, R2 in Hc2.
        destruct (merge_snoc_prefix (pl_rhs pl) (pl_sol pl) v Hc2) as [t Et].
        rewrite <- (merge_comm (pl_sol pl) (pl_rhs pl) (pre_compat Hp)) in Et.
        assert (Ec : merge (map layout (pl_sol pl2)) (map layout (pl_rhs pl2)) = merge (map layout (pl_sol pl)) (map layout (pl_rhs pl)) ++ t).
        { rewrite (merge_comm _ _ (pre_compat Hp2)), S2, R2. exact Et. }
        apply (@mats_ok_grow pl pl2 (min_len pl) (min_len pl2) (map fst t) (map snd t)); auto; try lia.
        -- unfold min_len. rewrite S2, R2, app_length. cbn. lia.
        -- rewrite (pre_spaces Hp2), Ec, map_app, <- (pre_spaces Hp). reflexivity.
        -- rewrite (pre_parts Hp2), Ec, map_app, <- (pre_parts Hp). reflexivity.
      * intros w Hw. apply Hv. cbn in *. apply in_app_or in Hw. apply in_or_app. destruct Hw as [Hw|Hw]; [left; exact Hw|right; right; exact Hw].
      * rewrite R2, <- app_assoc in C4. rewrite S2 in C3. rewrite M2 in C5. exact (conj C1 (conj C2 (conj C3 (conj C4 C5)))).
    + unfold add_row_partitioned_matrix in E. rewrite (num_spaces_pre Hp) in E.
      destruct (length (pl_sol pl) =? length (pl_rhs pl)) eqn:El; [|discriminate]. apply Nat.eqb_eq in El. cbn [obind] in E.
      destruct (d <? length (pl_sol pl)) eqn:Ed; [|discriminate]. destruct (r <? length (pl_sol pl)) eqn:Er; [|discriminate].
      apply Nat.ltb_lt in Ed. apply Nat.ltb_lt in Er. cbn [oassert] in E.
      destruct (nth_error (pl_parts pl) r) as [q|] eqn:Eq; [|discriminate]. destruct (nth_error (pl_spaces pl) d) as [sp|] eqn:Esp; [|discriminate].
      destruct (kernel_from_range lg m q) as [kps| | |] eqn:Ek; cbn [obind] in E; try discriminate. injection E as <-.
      destruct (IH (mk_planner (pl_spaces pl) (pl_parts pl) (pl_fields pl) (pl_wregions pl) (pl_wparts pl) (pl_sol pl) (pl_rhs pl) (pl_ws pl)
        (pl_mats pl ++ [mk_pl_matrix m d r kps (domain_from_kernel lg m sp kps)])) pl') as [C1 [C2 [C3 [C4 C5]]]]; auto.
      * constructor; cbn; apply Hp.
      * intros pm Hpm. cbn [pl_mats pl_parts pl_spaces min_len pl_sol pl_rhs] in *. apply in_app_or in Hpm. destruct Hpm as [Hpm|[<-|[]]].
        -- apply (Hm pm Hpm).
        -- cbn. split; [apply (Hmm m d r); left; reflexivity|]. unfold min_len. cbn.
           rewrite (nth_error_nth _ _ 0 Eq), (nth_error_nth _ _ 0 Esp). split; [lia|]. split; [lia|]. split; [exact Ek|reflexivity].
      * intros m' d' r' Hin. apply (Hmm m' d' r'). right. exact Hin.
      * cbn [pl_sol pl_rhs pl_mats] in *. rewrite map_app, <- app_assoc in C5. exact (conj C1 (conj C2 (conj C3 (conj C4 C5)))).
Qed.

(** ** allocate_workspace *)
Definition wvec (q region j : nat) : pvec := mk_pvec (part_parent lg q) j region (part_colors lg q) q.
Definition complete_disjoint (q : nat) : Prop := is_disjoint lg q = true /\ is_complete lg q = true.
Lemma make_wvec q r j : complete_disjoint q -> make_vector lg q r j = Ok (wvec q r j).
Proof. intros [H1 H2]. unfold make_vector. rewrite H1, H2. reflexivity. Qed.
Lemma sequence_wvecs q r js : complete_disjoint q -> sequence (map (fun j => make_vector lg q r j) js) = Ok (map (wvec q r) js).
Proof.
  intros H. induction js as [|j js IH]; [reflexivity|]. cbn [map sequence]. rewrite (make_wvec r j H). cbn [obind].
  unfold sequence in *. rewrite IH. reflexivity.
Qed.
Lemma workspace_rows_spec nw : forall (spaces parts : list nat) st, length spaces = length parts ->
  (forall q, In q parts -> complete_disjoint q) ->
  @workspace_rows T lg spaces parts nw st =
    Ok ((seq (next_region st) (length parts),
         map (fun rq => map (wvec (snd rq) (fst rq)) (seq 0 nw)) (combine (seq (next_region st) (length parts)) parts)),
        [], mk_ist (next_fut st) (next_region st + length parts)).
Proof.
  induction spaces as [|sp spaces IH]; intros [|q parts] st Hl Hq; try discriminate.
  - cbn. rewrite Nat.add_0_r. destruct st; reflexivity.
  - cbn [workspace_rows]. unfold bind at 1. unfold fresh_region. cbn [obind].
    unfold bind at 1. unfold lift. rewrite sequence_wvecs by (apply Hq; left; reflexivity). cbn [obind].
    unfold bind at 1. rewrite IH; [|cbn in Hl; lia|intros q' Hq'; apply Hq; right; exact Hq'].
    cbn [obind ret fst snd next_region next_fut length seq combine map app]. rewrite Nat.add_succ_r. reflexivity.
Qed.
Lemma column_rows nw j (rqs : list (nat * nat)) : j < nw ->
  column j (map (fun rq => map (wvec (snd rq) (fst rq)) (seq 0 nw)) rqs) = map (fun rq => wvec (snd rq) (fst rq) j) rqs.
Proof.
  intros Hj. induction rqs as [|rq rqs IH]; [reflexivity|]. cbn [map column flat_map]. unfold column in IH. rewrite IH.
  rewrite nth_error_map_some, (@nth_error_nth' nat (seq 0 nw) j 0) by (rewrite seq_length; exact Hj).
  rewrite seq_nth by exact Hj. reflexivity.
Qed.

Definition storage (v : pvec) : nat * nat := (pv_region v, pv_fid v).

Definition with_workspace (pl : planner) (nr nw : nat) : planner :=
  let n := length (pl_parts pl) in
  mk_planner (pl_spaces pl) (pl_parts pl) true (seq nr n) (combine (seq nr n) (pl_parts pl)) (pl_sol pl) (pl_rhs pl)
    (map (fun j => map (fun rq => wvec (snd rq) (fst rq) j) (combine (seq nr n) (pl_parts pl))) (seq 0 nw)) (pl_mats pl).
Lemma allocate_spec pl nw st : pre pl -> (forall q, In q (pl_parts pl) -> complete_disjoint q) ->
  allocate_workspace lg pl nw st =
    Ok (with_workspace pl (next_region st) nw, [], mk_ist (next_fut st) (next_region st + length (pl_parts pl))).
Proof.
  intros Hp Hq. unfold allocate_workspace, bind at 1, massert. rewrite (no_workspace_pre Hp). cbn [obind].
  unfold bind at 1. assert (L : length (pl_spaces pl) = length (pl_parts pl)) by (rewrite (pre_spaces Hp), (pre_parts Hp), !map_length; reflexivity).
  rewrite L, Nat.eqb_refl. cbn [obind]. unfold bind at 1. rewrite workspace_rows_spec by assumption.
  cbn [obind fst snd ret app]. unfold with_workspace.
  match goal with |- Ok (mk_planner _ _ _ _ _ _ _ ?a _, _, _) = Ok (mk_planner _ _ _ _ _ _ _ ?b _, _, _) => replace a with b; [reflexivity|] end.
  symmetry. apply map_ext_in. intros j Hj. apply in_seq in Hj. rewrite column_rows by lia. reflexivity.
Qed.

Lemma constructed_part v : constructed lg v -> complete_disjoint (pv_part v) /\ pv_space v = part_parent lg (pv_part v).
Proof.
  intros [q [r [f H]]]. unfold make_vector, oassert in H. unfold complete_disjoint.
  destruct (is_disjoint lg q) eqn:E1; [|discriminate]. destruct (is_complete lg q) eqn:E2; [|discriminate].
  injection H as <-. cbn. auto.
Qed.
Lemma merge_in X (a b : list X) x : In x (merge a b) -> In x (a ++ b).
Proof.
  revert b. induction a as [|y a IH]; intros [|z b] H; cbn in *; auto.
  - rewrite app_nil_r. exact H.
  - destruct H as [H|H]; [left; exact H|right]. apply IH in H. apply in_app_or in H. apply in_or_app. destruct H as [H|H]; [left; exact H|right; right; exact H].
Qed.
Lemma pre_parts_cd pl : pre pl -> (forall v, In v (pl_sol pl ++ pl_rhs pl) -> constructed lg v) ->
  forall q, In q (pl_parts pl) -> complete_disjoint q.
Proof.
  intros Hp Hv q Hq. rewrite (pre_parts Hp) in Hq. apply in_map_iff in Hq. destruct Hq as [[s0 q0] [<- Hin]].
  apply merge_in in Hin. rewrite <- map_app in Hin. apply in_map_iff in Hin. destruct Hin as [v [E Hin]]. unfold layout in E. injection E as _ <-.
  apply (constructed_part (Hv v Hin)).
Qed.

(** A completed set-up is ready to compute. *)
Theorem set_up_ready pl nw st : pre pl -> mats_ok pl (length (pl_sol pl)) ->
  length (pl_sol pl) = length (pl_rhs pl) ->
  (forall v, In v (pl_sol pl ++ pl_rhs pl) -> constructed lg v /\ pv_region v < next_region st) ->
  NoDup (map storage (pl_sol pl ++ pl_rhs pl)) ->
  ready lg (with_workspace pl (next_region st) nw) (length (pl_sol pl)) (2 + nw).
Proof.
  intros Hp Hm Hl Hv Hnd. set (n := length (pl_sol pl)) in *.
  assert (Hc : forall v, In v (pl_sol pl ++ pl_rhs pl) -> constructed lg v) by (intros v H; apply Hv; exact H).
  assert (Hcd := pre_parts_cd Hp Hc).
  assert (Ls : length (pl_spaces pl) = n) by (rewrite (pre_spaces Hp), map_length, merge_length, !map_length; lia).
  assert (Lp : length (pl_parts pl) = n) by (rewrite (pre_parts Hp), map_length, merge_length, !map_length; lia).
  assert (Lay : forall i v, nth_error (pl_sol pl) i = Some v \/ nth_error (pl_rhs pl) i = Some v ->
     pv_space v = nth i (pl_spaces pl) 0 /\ pv_part v = nth i (pl_parts pl) 0).
  { intros i v H. assert (Hi : i < n).
    { destruct H as [H|H]; [assert (i < length (pl_sol pl))|assert (i < length (pl_rhs pl))]; try (apply nth_error_Some; rewrite H; discriminate); lia. }
    assert (E : nth_error (merge (map layout (pl_sol pl)) (map layout (pl_rhs pl))) i = Some (layout v)).
    { destruct H as [H|H].
      - rewrite merge_nth_l by (rewrite map_length; exact Hi). rewrite nth_error_map_some, H. reflexivity.
      - rewrite (merge_comm _ _ (pre_compat Hp)), merge_nth_l by (rewrite map_length; lia). rewrite nth_error_map_some, H. reflexivity. }
    rewrite (pre_spaces Hp), (pre_parts Hp). split; symmetry; apply nth_error_nth; rewrite nth_error_map_some, E; reflexivity. }
  assert (Wv : forall j i, j < nw -> i < n -> vec (with_workspace pl (next_region st) nw) (S (S j)) i = wvec (nth i (pl_parts pl) 0) (next_region st + i) j).
  { intros j i Hj Hi. unfold vec, get_vector, vector_row. cbn [with_workspace pl_ws].
    rewrite nth_error_map_some, (@nth_error_nth' nat (seq 0 nw) j 0) by (rewrite seq_length; exact Hj). rewrite seq_nth by exact Hj.
    cbn [option_map obind]. rewrite nth_error_map_some.
    rewrite (@nth_error_nth' (nat * nat) _ i (0, 0)) by (rewrite combine_length, seq_length; lia).
    rewrite List.combine_nth by (rewrite seq_length; reflexivity). rewrite seq_nth by lia. reflexivity. }
  assert (V0 : forall i, i < n -> nth_error (pl_sol pl) i = Some (vec (with_workspace pl (next_region st) nw) 0 i)).
  { intros i Hi. unfold vec, get_vector. cbn. destruct (nth_error (pl_sol pl) i) eqn:E; [reflexivity|]. apply nth_error_None in E. unfold n in Hi. lia. }
  assert (V1 : forall i, i < n -> nth_error (pl_rhs pl) i = Some (vec (with_workspace pl (next_region st) nw) 1 i)).
  { intros i Hi. unfold vec, get_vector. cbn. destruct (nth_error (pl_rhs pl) i) eqn:E; [reflexivity|]. apply nth_error_None in E. lia. }
  assert (Cat : forall vi i, vi < 2 -> i < n -> nth_error (pl_sol pl ++ pl_rhs pl) (vi * n + i) = Some (vec (with_workspace pl (next_region st) nw) vi i)).
  { intros [|[|vi]] i Hvi Hi; try lia.
    - cbn [Nat.mul Nat.add]. rewrite nth_error_app1 by exact Hi. apply V0. exact Hi.
    - rewrite nth_error_app2 by (fold n; lia). replace (1 * n + i - length (pl_sol pl)) with i by (fold n; lia). apply V1. exact Hi. }
  assert (Reg : forall vi i, vi < 2 -> i < n -> pv_region (vec (with_workspace pl (next_region st) nw) vi i) < next_region st).
  { intros vi i Hvi Hi. apply Hv. eapply nth_error_In. apply (Cat vi i Hvi Hi). }
  constructor.
  - unfold get_num_spaces. cbn [with_workspace pl_spaces pl_parts pl_wregions pl_wparts pl_sol pl_rhs pl_ws].
    rewrite combine_length, seq_length, Ls, Lp, Nat.min_id, Nat.eqb_refl, !orb_true_r. fold n. rewrite <- Hl, Nat.eqb_refl. cbn [oassert].
    rewrite (proj2 (forallb_forall _ _)); [reflexivity|]. intros row Hrow. apply in_map_iff in Hrow. destruct Hrow as [j [<- _]].
    rewrite map_length, combine_length, seq_length, Lp, Nat.min_id. apply Nat.eqb_refl.
  - intros [|[|j]] Hvi.
    + exists (pl_sol pl). split; reflexivity.
    + exists (pl_rhs pl). split; [reflexivity|symmetry; exact Hl].
    + cbn [vector_row with_workspace pl_ws].
      rewrite nth_error_map_some, (@nth_error_nth' nat (seq 0 nw) j 0) by (rewrite seq_length; lia). cbn [option_map].
      eexists. split; [reflexivity|]. rewrite map_length, combine_length, seq_length, Lp. apply Nat.min_id.
  - intros [|[|j]] i Hvi Hi.
    + apply Hc. apply in_or_app. left. eapply nth_error_In. apply (V0 i Hi).
    + apply Hc. apply in_or_app. right. eapply nth_error_In. apply (V1 i Hi).
    + rewrite Wv by lia. eexists _, _, _. apply make_wvec. apply Hcd. apply nth_In. lia.
  - intros [|[|j]] i Hvi Hi.
    + apply Lay. left. apply V0. exact Hi.
    + apply Lay. right. apply V1. exact Hi.
    + rewrite Wv by lia. cbn [with_workspace pl_spaces pl_parts wvec pv_space pv_part]. split; [|reflexivity].
      destruct (Lay i _ (or_introl (V0 i Hi))) as [E1 E2]. rewrite <- E1, <- E2. symmetry.
      apply (constructed_part (Hc _ (in_or_app _ _ _ (or_introl (nth_error_In _ _ (V0 i Hi)))))).
  - intros vi i vj j Hvi Hi Hvj Hj Er Ef.
    destruct (Nat.lt_ge_cases vi 2) as [A1|A1], (Nat.lt_ge_cases vj 2) as [A2|A2].
    + assert (E : vi * n + i = vj * n + j).
      { apply (proj1 (NoDup_nth_error _) Hnd).
        - rewrite map_length. apply nth_error_Some. rewrite (Cat vi i A1 Hi). discriminate.
        - rewrite !nth_error_map_some, (Cat vi i A1 Hi), (Cat vj j A2 Hj). cbn [option_map]. unfold storage. rewrite Er, Ef. reflexivity. }
      destruct vi as [|[|vi]]; destruct vj as [|[|vj]]; try lia.
    + destruct vj as [|[|vj]]; try lia. rewrite (Wv vj j) in Er by lia. assert (R := Reg vi i A1 Hi). rewrite Er in R. cbn in R. lia.
    + destruct vi as [|[|vi]]; try lia. rewrite (Wv vi i) in Er by lia. assert (R := Reg vj j A2 Hj). rewrite <- Er in R. cbn in R. lia.
    + destruct vi as [|[|vi]]; try lia. destruct vj as [|[|vj]]; try lia. rewrite (Wv vi i) in Er, Ef by lia. rewrite (Wv vj j) in Er, Ef by lia. cbn in Er, Ef. lia.
  - intros pm Hpm. apply (Hm pm Hpm).
Qed.

(** Adding a matrix to a ready planner keeps it ready. *)
Theorem add_matrix_ready (pl : planner) n nv m d r : ready lg pl n nv -> matrix_ok lg m -> d < n -> r < n ->
  forall pl', add_row_partitioned_matrix lg pl m d r = Ok pl' -> ready lg pl' n nv.
Proof.
  intros Hrd Hm Hd Hr pl' H. unfold add_row_partitioned_matrix in H. rewrite (rd_num Hrd) in H. cbn [obind] in H.
  rewrite (proj2 (Nat.ltb_lt _ _) Hd), (proj2 (Nat.ltb_lt _ _) Hr) in H. cbn [oassert] in H.
  destruct (nth_error (pl_parts pl) r) as [q|] eqn:Eq; [|discriminate]. destruct (nth_error (pl_spaces pl) d) as [sp|] eqn:Esp; [|discriminate].
  destruct (kernel_from_range lg m q) as [kps| | |] eqn:Ek; cbn [obind] in H; try discriminate. injection H as <-.
  constructor.
  - exact (rd_num Hrd).
  - exact (rd_rows Hrd).
  - exact (rd_constructed Hrd).
  - exact (rd_layout Hrd).
  - exact (rd_distinct Hrd).
  - intros pm Hpm. cbn [pl_mats] in Hpm. apply in_app_or in Hpm. destruct Hpm as [Hpm|[<-|[]]]; [exact (rd_mats Hrd _ Hpm)|].
    cbn [pm_matrix pm_domain pm_range pm_kernel pm_ghost pl_parts pl_spaces].
    rewrite (nth_error_nth _ _ 0 Eq), (nth_error_nth _ _ 0 Esp). auto.
Qed.
End Setup.
