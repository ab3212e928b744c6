(** PropsVectorProg: property C80 (straight-line programs over scalars, vectors and matrices mean what they say). *)
From Coq Require Import Reals Lra.
From Coq Require Import Floats.SpecFloat.
From Verif Require Import Base Index IndexFacts Outcome Sched Async Arith Launch Vector PartitionSpec VectorFacts LaunchFacts Matrix MatrixSpec MatrixFacts
  MatvecFacts Builder BuilderFacts Exec ExactSum Planner PlannerFacts PropsVector PropsMatrix.
From Coq Require Import FunctionalExtensionality.
From Verif Require PropsScalar PropsTests.
From Verif Require Import ScalarProg FreshFacts FreshOps PrintScalar PropsPrintScalar VectorProg VectorSpec TestPrograms.
Set Implicit Arguments.

Section Prog.
Variable T : Type.
Variable A : arith T.
Variable lg : legion.
Variable red : nat -> list T -> T.
Variable V : nat -> pvec.
Variable nv : nat.
Notation pts v := (is_points lg (pv_space (V v))).
Notation store := (store loc T).

(** the store holds the values: every scalar variable names a future with its value, every vector variable stores its entries *)
Definition holds_values (env : nat -> scalar) (s : store) (x : values T) : Prop :=
  (forall k, s (LFut (env k)) = scalars x k) /\ (forall v p, v < nv -> In p (pts v) -> s (at_point (V v) p) = entries x v p).
(** nothing outside the vectors is written *)
Definition only_vectors (s s' : store) : Prop :=
  forall r f p, (forall v, v < nv -> In p (pts v) -> LVec r f p <> at_point (V v) p) -> s' (LVec r f p) = s (LVec r f p).

Hypothesis Hlg : legion_ok lg.
Hypothesis Hred : legal_reduction A red.
Hypothesis Hcon : forall v, v < nv -> constructed lg (V v).
Hypothesis Hdis : forall v w, v < nv -> w < nv -> v <> w -> distinct_storage (V v) (V w).

Definition post (p : list (vstmt T)) (st : ist) (s : store) (x : values T) (env' : nat -> scalar) (st' : ist) (s' : store) : Prop :=
  exists x', direct_vprog A lg (fun v => pv_space (V v)) x p x' /\ holds_values env' s' x' /\ env_ok env' st' /\ next_fut st <= next_fut st' /\
    (forall n, n < next_fut st -> s' (LFut n) = s (LFut n)) /\ only_vectors s s'.

Lemma at_point_other v w p p' : v < nv -> w < nv -> v <> w -> at_point (V v) p <> at_point (V w) p'.
Proof. intros H1 H2 H3 E. unfold at_point in E. injection E as E1 E2 _. destruct (Hdis H1 H2 H3); congruence. Qed.
Lemma preserved_vec (st : ist) (s s' : store) r f p : preserved st s s' -> s' (LVec r f p) = s (LVec r f p).
Proof. intros H. apply H. intros n _. discriminate. Qed.
Lemma preserved_env (st : ist) (s s' : store) env x : env_ok env st -> preserved st s s' -> holds_values env s x -> holds_values env s' x.
Proof.
  intros He P [H1 H2]. split.
  - intros k. rewrite (preserved_fut P (He k)). apply H1.
  - intros v p Hv Hp. unfold at_point. rewrite (preserved_vec _ _ _ P). apply H2; assumption.
Qed.
Lemma preserved_only (st : ist) (s s' : store) : preserved st s s' -> only_vectors s s'.
Proof. intros P r f p _. apply (preserved_vec _ _ _ P). Qed.
Lemma only_trans (s s1 s2 : store) : only_vectors s s1 -> only_vectors s1 s2 -> only_vectors s s2.
Proof. intros H1 H2 r f p H. rewrite H2 by exact H. apply H1. exact H. Qed.

(** writing vector [v] *)
Lemma holds_put env (s s' : store) x v g : v < nv -> holds_values env s x ->
  (forall p, In p (pts v) -> s' (at_point (V v) p) = g p) ->
  (forall l, (forall p, In p (pts v) -> l <> at_point (V v) p) -> s' l = s l) ->
  holds_values env s' (mk_values (scalars x) (put (entries x) v g)) /\ (forall n, s' (LFut n) = s (LFut n)) /\ only_vectors s s'.
Proof.
  intros Hv [H1 H2] U F. split; [split|split].
  - intros k. cbn [scalars]. rewrite F by (intros p _; discriminate). apply H1.
  - intros u p Hu Hp. cbn [entries]. unfold put. destruct (Nat.eqb_spec u v) as [->|N]; [apply U; exact Hp|].
    rewrite F; [apply H2; assumption|]. intros p' _. apply at_point_other; assumption.
  - intros n. apply F. intros p _. discriminate.
  - intros r f p H. apply F. intros p' Hp' E. refine (H v Hv _ _).
    + unfold at_point in E. injection E as _ _ ->. exact Hp'.
    + unfold at_point in *. injection E as -> -> ->. reflexivity.
Qed.

Lemma issue_exps_spec env es : forall st s, env_ok env st ->
  wp (issue_exps A env es) (fun fs st' s' => map (fun f => s' (LFut f)) fs = map (direct_exp A (env_val env s)) es /\
    (forall f, In f fs -> f < next_fut st') /\ next_fut st <= next_fut st' /\ preserved st s s') st s.
Proof.
  induction es as [|e es IH]; intros st s He; cbn [issue_exps].
  - apply wp_ret. split; [reflexivity|]. split; [intros f []|]. split; [lia|]. intros l _. reflexivity.
  - apply wp_bind. eapply wp_conseq; [apply issue_exp_spec; exact He|]. intros n st1 s1 [E1 [L1 [L2 P1]]].
    apply wp_bind. eapply wp_conseq; [apply IH; intros x; specialize (He x); lia|]. intros fs st2 s2 [E2 [B2 [L3 P2]]].
    apply wp_ret. split; [|split; [|split]].
    + cbn [map]. f_equal; [rewrite (preserved_fut P2 L1); exact E1|]. rewrite E2. apply map_ext. intros e'. apply direct_exp_ext.
      intros k. unfold env_val. apply (preserved_fut P1). apply He.
    + intros f [<-|Hf]; [lia|apply B2; exact Hf].
    + lia.
    + eapply preserved_trans; eassumption.
Qed.

Lemma dot_loop_group (f g : point -> T) piece : forall acc,
  dot_loop A acc (flat_map (fun p => [f p; g p]) piece) = fold_left (fun a p => aadd A a (amul A (f p) (g p))) piece acc.
Proof. induction piece as [|p l IH]; intros acc; cbn; [reflexivity|apply IH]. Qed.
Lemma group_dot_ext (f g f' g' : point -> T) piece : (forall p, In p piece -> f p = f' p /\ g p = g' p) -> group_dot A f g piece = group_dot A f' g' piece.
Proof.
  intros H. unfold group_dot. generalize (a0 A) as acc. induction piece as [|p l IH]; intros acc; cbn; [reflexivity|].
  destruct (H p (or_introl eq_refl)) as [-> ->]. apply IH. intros q Hq. apply H. right. exact Hq.
Qed.
Lemma add_products_ext (m : matrix T) (f g : point -> T) y kps : (forall kp, In kp kps -> f (PropsMatrix.column m kp) = g (PropsMatrix.column m kp)) ->
  add_products A m f y kps = add_products A m g y kps.
Proof.
  intros H. unfold add_products. revert y. induction kps as [|k l IH]; intros y; cbn; [reflexivity|]. rewrite (H k (or_introl eq_refl)). apply IH.
  intros q Hq. apply H. right. exact Hq.
Qed.

Lemma wp_vector_dot v w : v < nv -> w < nv -> compatible_layout (V v) (V w) -> forall (Q : nat -> ist -> store -> Prop) st s,
  (forall s', s' (LFut (next_fut st)) = red (next_fut st) (map (group_dot A (fun p => s (at_point (V v) p)) (fun p => s (at_point (V w) p))) (pieces lg (V v))) ->
     (forall n, n <> next_fut st -> s' (LFut n) = s (LFut n)) -> (forall r f p, s' (LVec r f p) = s (LVec r f p)) ->
     Q (next_fut st) (mk_ist (S (next_fut st)) (next_region st)) s') ->
  wp (vector_dot A lg red (V v) (V w)) Q st s.
Proof.
  intros Hv Hw Hl Q st s HQ. unfold vector_dot. apply wp_bind. apply wp_fresh_fut. apply wp_bind.
  assert (E : exists ln1 ln2, dot A lg red (V v) (V w) (next_fut st) = Ok [ln1; ln2]).
  { unfold dot. rewrite (proj2 (same_layout_spec _ _) Hl). cbn [oassert]. unfold submit. cbn [ln_reqs].
    assert (E : interfering [get_requirement lg (V v) READ_ONLY; get_requirement lg (V w) READ_ONLY] = false).
    { cbn. unfold reqs_alias. cbn. rewrite andb_false_r. reflexivity. }
    rewrite E. cbn [obind]. eexists _, _. reflexivity. }
  destruct E as [ln1 [ln2 E]]. eapply wp_issue_all; [exact E|apply (dot_good A lg red _ _ _ E)|]. apply wp_ret.
  destruct (@dot_effect T A lg red _ _ _ _ (concat (ln_tasks ln1)) (concat (ln_tasks ln2)) E) with (s := s) as [D1 D2].
  { repeat constructor; apply interleave_concat. }
  apply HQ.
  - rewrite effect_cons, !effect_one, <- run_app, D1. f_equal. apply map_ext. intros piece. unfold partial_dot, group_dot. apply dot_loop_group.
  - intros n Hn. rewrite effect_cons, !effect_one, <- run_app. apply D2; congruence.
  - intros r f p. rewrite effect_cons, !effect_one, <- run_app. apply D2; discriminate.
Qed.

Lemma vstmt_spec c env st s x : well_formed lg V nv c -> env_ok env st -> holds_values env s x ->
  wp (issue_vstmt A lg red V env c) (fun env' st' s' => exists x', direct_stmt A lg (fun v => pv_space (V v)) (scalars x) (entries x) c x' /\
    holds_values env' s' x' /\ env_ok env' st' /\ next_fut st <= next_fut st' /\ (forall n, n < next_fut st -> s' (LFut n) = s (LFut n)) /\ only_vectors s s') st s.
Proof.
  intros Hwf He Hx.
  assert (Sc : forall e, direct_exp A (env_val env s) e = direct_exp A (scalars x) e) by (intros e; apply direct_exp_ext; intros k; apply (proj1 Hx)).
  (* an element-wise call after the scalar arguments have been computed *)
  assert (El : forall v op (g : point -> T) st1 s1, v < nv -> (exists ln, call A lg (V v) op = Ok ln) -> next_fut st <= next_fut st1 -> preserved st s s1 ->
    (forall p a, In p (pts v) -> new_entry A s1 (V v) p op a -> a = g p) ->
    forall c', direct_stmt A lg (fun v => pv_space (V v)) (scalars x) (entries x) c' (mk_values (scalars x) (put (entries x) v g)) ->
    wp (issue (call A lg (V v) op) ;; ret env) (fun env' st' s' => exists x', direct_stmt A lg (fun v => pv_space (V v)) (scalars x) (entries x) c' x' /\
    holds_values env' s' x' /\ env_ok env' st' /\ next_fut st <= next_fut st' /\ (forall n, n < next_fut st -> s' (LFut n) = s (LFut n)) /\ only_vectors s s') st1 s1).
  { intros v op g st1 s1 Hv [ln E] L P Hg c' D. apply wp_bind. eapply PropsTests.wp_call; [exact Hlg|apply Hcon; exact Hv|exact E|]. intros s2 U F. apply wp_ret.
    destruct (@holds_put env s1 s2 x v g Hv (preserved_env He P Hx)) as [G1 [G2 G3]]; [intros p Hp; apply Hg; [exact Hp|apply U; exact Hp]|exact F|].
    exists (mk_values (scalars x) (put (entries x) v g)). split; [exact D|]. split; [exact G1|]. split; [intros k; specialize (He k); lia|]. split; [exact L|]. split.
    - intros n Hn. rewrite G2. apply (preserved_fut P Hn).
    - eapply only_trans; [apply (preserved_only P)|exact G3]. }
  assert (P0 : preserved st s s) by (intros l _; reflexivity).
  assert (Vec : forall s1 v p, preserved st s s1 -> v < nv -> In p (pts v) -> s1 (at_point (V v) p) = entries x v p).
  { intros s1 v p P Hv Hp. unfold at_point. rewrite (preserved_vec _ _ _ P). apply (proj2 Hx); assumption. }
  destruct c as [k e|k v w|v c|v e|v w|v e|v es w|v es w|v m w]; cbn [issue_vstmt well_formed] in *.
  - apply wp_bind. eapply wp_conseq; [apply issue_exp_spec; exact He|]. intros n st1 s1 [E1 [L1 [L2 P1]]]. apply wp_ret. eexists. split; [apply d_set|].
    split; [split|split; [|split; [exact L2|split; [intros j Hj; apply (preserved_fut P1 Hj)|apply (preserved_only P1)]]]].
    + intros j. cbn [scalars]. unfold set. destruct (j =? k); [rewrite E1; apply Sc|]. rewrite (preserved_fut P1 (He j)). apply (proj1 Hx).
    + intros v p Hv Hp. cbn [entries]. apply Vec; assumption.
    + intros j. unfold set. destruct (j =? k); [exact L1|specialize (He j); lia].
  - destruct Hwf as [Hv [Hw Hl]]. apply wp_bind. apply wp_vector_dot; [exact Hv|exact Hw|exact Hl|]. intros s1 E1 F1 G1. apply wp_ret.
    eexists. split; [|split; [split|]].
    + eapply (@d_dot _ _ _ _ _ _ k v w (pieces lg (V v)) (s1 (LFut (next_fut st)))).
      * apply constructed_perm; [exact Hlg|apply Hcon; exact Hv].
      * rewrite E1. assert (Em : map (group_dot A (fun p => s (at_point (V v) p)) (fun p => s (at_point (V w) p))) (pieces lg (V v)) = map (group_dot A (entries x v) (entries x w)) (pieces lg (V v))).
        2:{ rewrite Em. apply Hred. } apply map_ext_in. intros piece Hpc. apply group_dot_ext. intros p Hp.
        assert (Hin : In p (pts v)). { eapply Permutation_in; [apply constructed_perm; [exact Hlg|apply Hcon; exact Hv]|]. apply in_concat. exists piece. split; assumption. }
        split; apply Vec; try assumption. rewrite <- (proj1 Hl). exact Hin.
    + intros j. cbn [scalars]. unfold set. destruct (j =? k); [reflexivity|]. rewrite F1; [apply (proj1 Hx)|]. specialize (He j). lia.
    + intros u p Hu Hp. cbn [entries]. unfold at_point. rewrite G1. apply (proj2 Hx); assumption.
    + cbn [next_fut]. split; [|split; [lia|split]].
      * intros j. cbn [next_fut]. unfold set. destruct (j =? k); [lia|specialize (He j); lia].
      * intros n Hn. apply F1. lia.
      * intros r f p _. apply G1.
  - refine (El v (Fill c) (fun _ => c) st s Hwf _ (Nat.le_refl _) P0 _ _ _); [eexists; reflexivity| |apply d_fill]. intros p a _ H. inversion H. reflexivity.
  - apply wp_bind. eapply wp_conseq; [apply issue_exp_spec; exact He|]. intros n st1 s1 [E1 [L1 [L2 P1]]].
    refine (El v (FillFuture n) _ st1 s1 Hwf _ L2 P1 _ _ (d_fill_scalar _ _ _ _ _ _ _)); [eexists; reflexivity|]. intros p a _ H. inversion H; subst. rewrite E1. apply Sc.
  - destruct Hwf as [Hv [Hw [N Hl]]]. refine (El v (Copy (V w)) _ st s Hv _ (Nat.le_refl _) P0 _ _ (d_copy _ _ _ _ _ _ _)).
    + exact (proj1 (@C07_compatible_operands_accepted T A lg red (V v) (V w) [] 0 Hl (Hdis Hv Hw N) (Nat.le_0_l _))).
    + intros p a Hp H. inversion H; subst. apply Vec; [exact P0|exact Hw|]. rewrite <- (proj1 Hl). exact Hp.
  - apply wp_bind. eapply wp_conseq; [apply issue_exp_spec; exact He|]. intros n st1 s1 [E1 [L1 [L2 P1]]].
    refine (El v (Scal [n]) _ st1 s1 Hwf _ L2 P1 _ _ (d_scal _ _ _ _ _ _ _)); [eexists; reflexivity|]. intros p a Hp H. inversion H as [| | | |fs al Hc| |]; subst.
    cbn [map] in Hc. inversion Hc; subst. rewrite E1, (Vec s1 v p P1 Hwf Hp), Sc. reflexivity.
  - destruct Hwf as [Hv [Hw [N [Hl Hn]]]]. apply wp_bind. eapply wp_conseq; [apply issue_exps_spec; exact He|]. intros fs st1 s1 [E1 [B1 [L2 P1]]].
    assert (Hlen : length fs = length es) by (rewrite <- (map_length (fun f => s1 (LFut f)) fs), E1; apply map_length).
    assert (Ha : exists alpha, coefficient A (map (direct_exp A (scalars x)) es) alpha).
    { destruct es as [|e1 [|e2 [|e3 [|e4 es]]]]; cbn in Hn; try lia; eexists; constructor. }
    destruct Ha as [alpha Ha].
    refine (El v (Axpy fs (V w)) _ st1 s1 Hv _ L2 P1 _ _ (d_axpy _ _ _ _ _ _ _ Ha)).
    + exact (proj1 (proj2 (@C07_compatible_operands_accepted T A lg red (V v) (V w) fs 0 Hl (Hdis Hv Hw N) ltac:(lia)))).
    + intros p a Hp H. inversion H as [| | | | |fs' x' al Hc|]; subst. rewrite E1 in Hc. rewrite (map_ext _ _ Sc) in Hc. rewrite (coefficient_fun Hc Ha).
      rewrite (Vec s1 v p P1 Hv Hp), (Vec s1 w p P1 Hw); [reflexivity|]. rewrite <- (proj1 Hl). exact Hp.
  - destruct Hwf as [Hv [Hw [N [Hl Hn]]]]. apply wp_bind. eapply wp_conseq; [apply issue_exps_spec; exact He|]. intros fs st1 s1 [E1 [B1 [L2 P1]]].
    assert (Hlen : length fs = length es) by (rewrite <- (map_length (fun f => s1 (LFut f)) fs), E1; apply map_length).
    assert (Ha : exists alpha, coefficient A (map (direct_exp A (scalars x)) es) alpha).
    { destruct es as [|e1 [|e2 [|e3 [|e4 es]]]]; cbn in Hn; try lia; eexists; constructor. }
    destruct Ha as [alpha Ha].
    refine (El v (Xpay fs (V w)) _ st1 s1 Hv _ L2 P1 _ _ (d_xpay _ _ _ _ _ _ _ Ha)).
    + exact (proj1 (proj2 (proj2 (@C07_compatible_operands_accepted T A lg red (V v) (V w) fs 0 Hl (Hdis Hv Hw N) ltac:(lia))))).
    + intros p a Hp H. inversion H as [| | | | | |fs' x' al Hc]; subst. rewrite E1 in Hc. rewrite (map_ext _ _ Sc) in Hc. rewrite (coefficient_fun Hc Ha).
      rewrite (Vec s1 v p P1 Hv Hp), (Vec s1 w p P1 Hw); [reflexivity|]. rewrite <- (proj1 Hl). exact Hp.
  - destruct Hwf as [Hv [Hw [N [Hok Hf]]]]. destruct (@derived_accepts T A lg m (V v) (V w) (Hcon Hv) Hf (Hdis Hv Hw N)) as [ln E].
    assert (Hg := @derived_good T A lg Hlg m (V v) (V w) ln (Hcon Hv) E).
    assert (Eff := fun s' => @derived_effect T A lg Hlg m (V v) (V w) ln s s' (Hcon Hv) Hok E).
    unfold derived_matvec, obind in E. destruct (kernel_from_range lg m (pv_part (V v))) as [kps| | |] eqn:Ek; try discriminate.
    apply wp_bind. eapply wp_lift; [reflexivity|]. apply wp_bind. eapply wp_issue; [exact E|exact Hg|]. apply wp_ret.
    destruct (some_end [ln] s) as [s1 H1]. destruct (Eff s1 H1) as [C1 C2].
    assert (Ef := launches_end_effect (Forall_cons ln Hg (Forall_nil _)) H1).
    destruct (@holds_put env s (effect [ln] s) x v (fun p => add_products A m (entries x w) (entries x v p) (row_entries lg m (pv_space (V w)) p)) Hv Hx) as [G1 [G2 G3]].
    + intros p Hp. rewrite <- Ef, (C1 p Hp), (Vec s v p P0 Hv Hp). apply add_products_ext. intros kp Hkp. apply Vec; [exact P0|exact Hw|].
      unfold row_entries in Hkp. apply filter_In in Hkp. destruct Hkp as [_ Hkp]. apply andb_true_iff in Hkp. apply mem_spec. apply Hkp.
    + intros l Hl. rewrite <- Ef. apply C2. exact Hl.
    + eexists. split; [apply d_matvec|]. split; [exact G1|]. split; [exact He|]. split; [lia|]. split; [intros n _; apply G2|exact G3].
Qed.
Lemma vprog_spec p : forall env st s x, Forall (well_formed lg V nv) p -> env_ok env st -> holds_values env s x ->
  wp (issue_vprog A lg red V env p) (post p st s x) st s.
Proof.
  induction p as [|c p IH]; intros env st s x Hwf He Hx; cbn [issue_vprog].
  - apply wp_ret. exists x. split; [constructor|]. split; [exact Hx|]. split; [exact He|]. split; [lia|]. split; [reflexivity|]. intros r f q _. reflexivity.
  - apply wp_bind. eapply wp_conseq; [apply vstmt_spec; [exact (Forall_inv Hwf)|exact He|exact Hx]|].
    intros env1 st1 s1 [x1 [D1 [H1 [E1 [L1 [F1 O1]]]]]]. eapply wp_conseq; [apply (IH env1 st1 s1 x1 (Forall_inv_tail Hwf) E1 H1)|].
    intros env2 st2 s2 [x2 [D2 [H2 [E2 [L2 [F2 O2]]]]]]. exists x2. split; [eapply d_step; eassumption|]. split; [exact H2|]. split; [exact E2|]. split; [lia|]. split.
    + intros n Hn. rewrite F2 by lia. apply F1. exact Hn.
    + eapply only_trans; eassumption.
Qed.
End Prog.

(** ** C80.  A straight-line program over scalar, vector and matrix variables is accepted, and in every execution ends with the values of its direct
    meaning: each scalar variable's future and each entry of each vector; no other stored vector entry changes. *)
Theorem C80_programs_mean_what_they_say : forall (T : Type) (A : arith T) lg red (V : nat -> pvec) nv p env st s x,
  legion_ok lg -> legal_reduction A red -> (forall v, v < nv -> constructed lg (V v)) ->
  (forall v w, v < nv -> w < nv -> v <> w -> distinct_storage (V v) (V w)) -> Forall (well_formed lg V nv) p ->
  (forall k, env k < next_fut st) -> holds_values lg V nv env s x ->
  accepted (issue_vprog A lg red V env p) st /\
  forall env' st' s', ends (issue_vprog A lg red V env p) st s env' st' s' ->
    (exists x', direct_vprog A lg (fun v => pv_space (V v)) x p x' /\ holds_values lg V nv env' s' x') /\ only_vectors lg V nv s s'.
Proof.
  intros T A lg red V nv p env st s x Hlg Hred Hcon Hdis Hwf He Hx. assert (W := @vprog_spec T A lg red V nv Hlg Hred Hcon Hdis p env st s x Hwf He Hx).
  split; [eapply wp_accepted; exact W|]. intros env' st' s' E. destruct (wp_ends W E) as [s1 [[x' [D [[H1 H2] [_ [_ [_ O]]]]]] Es]]. split.
  - exists x'. split; [exact D|]. split; [intros k; rewrite Es; apply H1|intros v q Hv Hq; rewrite Es; apply H2; assumption].
  - intros r f q Hq. rewrite Es. apply O. exact Hq.
Qed.
(** ... and all executions of one run end with the same bits, whatever the entry type and the schedule. *)
Theorem C80_schedule_independent : forall (T : Type) (A : arith T) lg red (V : nat -> pvec) nv p env st s env1 st1 s1 env2 st2 s2,
  legion_ok lg -> legal_reduction A red -> (forall v, v < nv -> constructed lg (V v)) ->
  (forall v w, v < nv -> w < nv -> v <> w -> distinct_storage (V v) (V w)) -> Forall (well_formed lg V nv) p -> (forall k, env k < next_fut st) ->
  ends (issue_vprog A lg red V env p) st s env1 st1 s1 -> ends (issue_vprog A lg red V env p) st s env2 st2 s2 -> forall l, s1 l = s2 l.
Proof.
  intros T A lg red V nv p env st s env1 st1 s1 env2 st2 s2 Hlg Hred Hcon Hdis Hwf He E1 E2.
  assert (Hx : holds_values lg V nv env s (mk_values (fun k => s (LFut (env k))) (fun v q => s (at_point (V v) q)))) by (split; intros; reflexivity).
  exact (proj2 (proj2 (wp_deterministic (@vprog_spec T A lg red V nv Hlg Hred Hcon Hdis p env st s _ Hwf He Hx) E1 E2))).
Qed.

(** The direct meaning is unique in exact arithmetic, and in every arithmetic for programs without scalar products *)
Definition is_dot {T} (c : vstmt T) : bool := match c with SDot _ _ _ => true | _ => false end.
Lemma direct_stmt_fun T (A : arith T) lg space sc ve c x1 x2 : is_dot c = false -> direct_stmt A lg space sc ve c x1 -> direct_stmt A lg space sc ve c x2 -> x1 = x2.
Proof.
  intros Hd H1 H2. destruct H1; inversion H2; subst; try reflexivity; try discriminate;
  match goal with H : coefficient _ ?l ?a, K : coefficient _ ?l ?b |- _ => rewrite (coefficient_fun H K) end; reflexivity.
Qed.
Lemma group_dot_exact (f g : point -> option R) l : group_dot exact f g l = osum (map (fun p => lift2 Rmult (f p) (g p)) l).
Proof.
  unfold group_dot. rewrite <- (oplus_0_l (osum _)). change (a0 exact) with (Some 0%R). generalize (Some 0%R) as acc. induction l as [|p l IH]; intros acc.
  - cbn. symmetry. apply oplus_0_r.
  - cbn [fold_left map]. rewrite IH. cbn [osum fold_right]. fold (osum (map (fun p => lift2 Rmult (f p) (g p)) l)). change (aadd exact) with (lift2 Rplus). change (amul exact) with (lift2 Rmult). symmetry. apply oplus_assoc.
Qed.
Lemma exact_dot_unique (f g : point -> option R) groups pts r : Permutation (concat groups) pts -> reduces_to exact (map (group_dot exact f g) groups) r ->
  r = osum (map (fun p => lift2 Rmult (f p) (g p)) pts).
Proof.
  intros Hp Hr. rewrite (reduces_to_exact Hr). rewrite (map_ext _ _ (group_dot_exact f g)). rewrite <- (osum_perm (Permutation_map _ Hp)), concat_map, osum_concat, map_map. reflexivity.
Qed.
Lemma direct_vprog_fun T (A : arith T) lg space p : forall x x1 x2,
  (forall sc ve c x1 x2, In c p -> direct_stmt A lg space sc ve c x1 -> direct_stmt A lg space sc ve c x2 -> x1 = x2) ->
  direct_vprog A lg space x p x1 -> direct_vprog A lg space x p x2 -> x1 = x2.
Proof.
  induction p as [|c p IH]; intros x x1 x2 Hf H1 H2; inversion H1; inversion H2; subst; [reflexivity|].
  match goal with K1 : direct_stmt _ _ _ _ _ c ?a, K2 : direct_stmt _ _ _ _ _ c ?b |- _ => assert (a = b) by (eapply Hf; [left; reflexivity|exact K1|exact K2]) end. subst.
  eapply IH; [|eassumption|eassumption]. intros sc ve c' y1 y2 Hin. apply Hf. right. exact Hin.
Qed.
Lemma exact_meaning_unique lg space p x x1 x2 : direct_vprog exact lg space x p x1 -> direct_vprog exact lg space x p x2 -> x1 = x2.
Proof.
  apply direct_vprog_fun. intros sc ve c y1 y2 _ H1 H2. destruct (is_dot c) eqn:E; [|eapply direct_stmt_fun; eassumption].
  destruct c; try discriminate. inversion H1; inversion H2; subst. do 2 f_equal.
  match goal with P1 : Permutation (concat ?g1) _, R1 : reduces_to _ (map _ ?g1) ?a, P2 : Permutation (concat ?g2) _, R2 : reduces_to _ (map _ ?g2) ?b |- _ =>
    rewrite (exact_dot_unique _ _ _ P1 R1), (exact_dot_unique _ _ _ P2 R2) end. reflexivity.
Qed.
Lemma same_meaning : forall (T : Type) (A : arith T) lg red1 red2 (V1 V2 : nat -> pvec) nv p env1 env2 st1 st2 s1 s2 x f1 t1 e1 f2 t2 e2,
  (forall x x1 x2, direct_vprog A lg (fun v => pv_space (V1 v)) x p x1 -> direct_vprog A lg (fun v => pv_space (V1 v)) x p x2 -> x1 = x2) ->
  legion_ok lg -> legal_reduction A red1 -> legal_reduction A red2 ->
  (forall v, v < nv -> constructed lg (V1 v) /\ constructed lg (V2 v)) -> (forall v, pv_space (V1 v) = pv_space (V2 v)) ->
  (forall v w, v < nv -> w < nv -> v <> w -> distinct_storage (V1 v) (V1 w) /\ distinct_storage (V2 v) (V2 w)) ->
  Forall (well_formed lg V1 nv) p -> Forall (well_formed lg V2 nv) p ->
  (forall k, env1 k < next_fut st1 /\ env2 k < next_fut st2) -> holds_values lg V1 nv env1 s1 x -> holds_values lg V2 nv env2 s2 x ->
  ends (issue_vprog A lg red1 V1 env1 p) st1 s1 f1 t1 e1 -> ends (issue_vprog A lg red2 V2 env2 p) st2 s2 f2 t2 e2 ->
  (forall k, e1 (LFut (f1 k)) = e2 (LFut (f2 k))) /\
  forall v q, v < nv -> In q (is_points lg (pv_space (V1 v))) -> e1 (at_point (V1 v) q) = e2 (at_point (V2 v) q).
Proof.
  intros T A lg red1 red2 V1 V2 nv p env1 env2 st1 st2 s1 s2 x f1 t1 e1 f2 t2 e2 Hu Hlg R1 R2 Hcon Hsp Hdis W1 W2 He H1 H2 E1 E2.
  destruct (@C80_programs_mean_what_they_say T A lg red1 V1 nv p env1 st1 s1 x Hlg R1 (fun v H => proj1 (Hcon v H)) (fun v w a b c => proj1 (Hdis v w a b c)) W1 (fun k => proj1 (He k)) H1) as [_ G1].
  destruct (@C80_programs_mean_what_they_say T A lg red2 V2 nv p env2 st2 s2 x Hlg R2 (fun v H => proj2 (Hcon v H)) (fun v w a b c => proj2 (Hdis v w a b c)) W2 (fun k => proj2 (He k)) H2) as [_ G2].
  destruct (G1 _ _ _ E1) as [[x1 [D1 [K1 L1]]] _]. destruct (G2 _ _ _ E2) as [[x2 [D2 [K2 L2]]] _].
  assert (Esp : (fun v => pv_space (V2 v)) = (fun v => pv_space (V1 v))) by (apply functional_extensionality; intros v; symmetry; apply Hsp). rewrite Esp in D2.
  assert (x1 = x2) by (eapply Hu; eassumption).
  subst x2. split.
  - intros k. rewrite K1, K2. reflexivity.
  - intros v q Hv Hq. rewrite L1, L2; [reflexivity|exact Hv|rewrite <- Hsp; exact Hq|exact Hv|exact Hq].
Qed.
(** Hence, in exact arithmetic, the results do not depend on the partitions or the reduction orders ... *)
Theorem C80_exact_partition_independent : forall lg red1 red2 (V1 V2 : nat -> pvec) nv p env1 env2 st1 st2 s1 s2 x f1 t1 e1 f2 t2 e2,
  legion_ok lg -> legal_reduction exact red1 -> legal_reduction exact red2 ->
  (forall v, v < nv -> constructed lg (V1 v) /\ constructed lg (V2 v)) -> (forall v, pv_space (V1 v) = pv_space (V2 v)) ->
  (forall v w, v < nv -> w < nv -> v <> w -> distinct_storage (V1 v) (V1 w) /\ distinct_storage (V2 v) (V2 w)) ->
  Forall (well_formed lg V1 nv) p -> Forall (well_formed lg V2 nv) p ->
  (forall k, env1 k < next_fut st1 /\ env2 k < next_fut st2) -> holds_values lg V1 nv env1 s1 x -> holds_values lg V2 nv env2 s2 x ->
  ends (issue_vprog exact lg red1 V1 env1 p) st1 s1 f1 t1 e1 -> ends (issue_vprog exact lg red2 V2 env2 p) st2 s2 f2 t2 e2 ->
  (forall k, e1 (LFut (f1 k)) = e2 (LFut (f2 k))) /\
  forall v q, v < nv -> In q (is_points lg (pv_space (V1 v))) -> e1 (at_point (V1 v) q) = e2 (at_point (V2 v) q).
Proof.
  intros lg red1 red2 V1 V2 nv p env1 env2 st1 st2 s1 s2 x f1 t1 e1 f2 t2 e2. refine (@same_meaning _ exact lg red1 red2 V1 V2 nv p env1 env2 st1 st2 s1 s2 x f1 t1 e1 f2 t2 e2 _).
  intros y y1 y2. apply exact_meaning_unique.
Qed.
(** ... and in every arithmetic, float and double included, this holds bit for bit for programs without scalar products. *)
Theorem C80_reproducible_without_dots : forall (T : Type) (A : arith T) lg red1 red2 (V1 V2 : nat -> pvec) nv p env1 env2 st1 st2 s1 s2 x f1 t1 e1 f2 t2 e2,
  (forall x v w, ~ In (SDot x v w) p) ->
  legion_ok lg -> legal_reduction A red1 -> legal_reduction A red2 ->
  (forall v, v < nv -> constructed lg (V1 v) /\ constructed lg (V2 v)) -> (forall v, pv_space (V1 v) = pv_space (V2 v)) ->
  (forall v w, v < nv -> w < nv -> v <> w -> distinct_storage (V1 v) (V1 w) /\ distinct_storage (V2 v) (V2 w)) ->
  Forall (well_formed lg V1 nv) p -> Forall (well_formed lg V2 nv) p ->
  (forall k, env1 k < next_fut st1 /\ env2 k < next_fut st2) -> holds_values lg V1 nv env1 s1 x -> holds_values lg V2 nv env2 s2 x ->
  ends (issue_vprog A lg red1 V1 env1 p) st1 s1 f1 t1 e1 -> ends (issue_vprog A lg red2 V2 env2 p) st2 s2 f2 t2 e2 ->
  (forall k, e1 (LFut (f1 k)) = e2 (LFut (f2 k))) /\
  forall v q, v < nv -> In q (is_points lg (pv_space (V1 v))) -> e1 (at_point (V1 v) q) = e2 (at_point (V2 v) q).
Proof.
  intros T A lg red1 red2 V1 V2 nv p env1 env2 st1 st2 s1 s2 x f1 t1 e1 f2 t2 e2 Hn. refine (@same_meaning _ A lg red1 red2 V1 V2 nv p env1 env2 st1 st2 s1 s2 x f1 t1 e1 f2 t2 e2 _).
  intros y y1 y2. apply direct_vprog_fun. intros sc ve c z1 z2 Hin. apply direct_stmt_fun. destruct c; try reflexivity. exfalso. eapply Hn. exact Hin.
Qed.

(** ** With the declarations: vectors on given partitions, each in fresh storage *)
(** the layout of vector variable [v] declared on the [v]-th partition of [qs] *)
Definition declared (lg : legion) (qs : list nat) (v : nat) : pvec :=
  mk_pvec (part_parent lg (nth v qs 0)) 0 v (part_colors lg (nth v qs 0)) (nth v qs 0).
Definition placed (lg : legion) (qs : list nat) (r0 v : nat) : pvec :=
  mk_pvec (part_parent lg (nth v qs 0)) 0 (r0 + v) (part_colors lg (nth v qs 0)) (nth v qs 0).
Lemma wp_new_vectors T lg qs : forall (Q : list pvec -> ist -> store loc T -> Prop) st s,
  (forall q, In q qs -> is_disjoint lg q = true /\ is_complete lg q = true) ->
  Q (map (placed lg qs (next_region st)) (seq 0 (length qs))) (mk_ist (next_fut st) (next_region st + length qs)) s -> wp (new_vectors T lg qs) Q st s.
Proof.
  induction qs as [|q qs IH]; intros Q st s Hq HQ; cbn [new_vectors].
  - apply wp_ret. cbn in HQ. rewrite Nat.add_0_r in HQ. destruct st. exact HQ.
  - destruct (Hq q (or_introl eq_refl)) as [H1 H2]. apply wp_bind. unfold new_vector. apply wp_bind. apply wp_fresh_region.
    eapply wp_lift; [unfold make_vector; rewrite H1, H2; reflexivity|]. apply wp_bind. apply IH; [intros q' H; apply Hq; right; exact H|].
    cbn [next_fut next_region]. apply wp_ret. cbn [length seq map] in HQ. rewrite <- seq_shift, map_map in HQ.
    replace (S (next_region st) + length qs) with (next_region st + S (length qs)) by lia.
    assert (E : placed lg (q :: qs) (next_region st) 0 = mk_pvec (part_parent lg q) 0 (next_region st) (part_colors lg q) q) by (unfold placed; rewrite Nat.add_0_r; reflexivity).
    rewrite E in HQ. erewrite (map_ext (fun x => placed lg (q :: qs) (next_region st) (S x))) in HQ; [exact HQ|].
    intros v. unfold placed. cbn [nth]. f_equal. lia.
Qed.
Lemma well_formed_layout T lg (V V' : nat -> pvec) nv (c : vstmt T) :
  (forall v, v < nv -> pv_space (V v) = pv_space (V' v) /\ pv_colors (V v) = pv_colors (V' v) /\ pv_part (V v) = pv_part (V' v)) ->
  well_formed lg V nv c -> well_formed lg V' nv c.
Proof.
  intros H. assert (L : forall v w, v < nv -> w < nv -> compatible_layout (V v) (V w) -> compatible_layout (V' v) (V' w)).
  { intros v w Hv Hw. unfold compatible_layout. destruct (H v Hv) as [-> [-> ->]]. destruct (H w Hw) as [-> [-> ->]]. tauto. }
  destruct c; cbn [well_formed]; try tauto; try (intros [H1 [H2 H3]]; repeat split; try tauto; apply L; tauto).
  all: try (intros [H1 [H2 [H3 H4]]]; repeat split; try tauto; apply L; tauto).
  all: try (intros [H1 [H2 [H3 [H4 H5]]]]; split; [exact H1|]; split; [exact H2|]; split; [exact H3|]; split; [apply L; assumption|exact H5]).
  intros [H1 [H2 [H3 [H4 H5]]]]. split; [exact H1|]. split; [exact H2|]. split; [exact H3|]. split; [exact H4|]. destruct m; [exact I|]. cbn in *. rewrite <- (proj1 (H v H1)). exact H5.
Qed.
(** declarations followed by statements *)
Definition whole_program {T} (A : arith T) lg red (qs : list nat) (env : nat -> scalar) (p : list (vstmt T)) : M T (list pvec * (nat -> scalar)) :=
  let* vs := new_vectors T lg qs in
  let* env' := issue_vprog A lg red (fun v => nth v vs (declared lg qs v)) env p in ret (vs, env').
Definition whole_post {T} (A : arith T) lg qs p env (st : ist) (s : store loc T) (y : list pvec * (nat -> scalar)) (st' : ist) (s' : store loc T) : Prop :=
  length (fst y) = length qs /\ env_ok (snd y) st' /\
    exists uninitialised x', direct_vprog A lg (fun v => part_parent lg (nth v qs 0)) (mk_values (fun k => s (LFut (env k))) uninitialised) p x' /\
      (forall k, s' (LFut (snd y k)) = scalars x' k) /\
      (forall v vec q, nth_error (fst y) v = Some vec -> In q (is_points lg (part_parent lg (nth v qs 0))) -> s' (at_point vec q) = entries x' v q) /\
      (forall r f q, r < next_region st -> s' (LVec r f q) = s (LVec r f q)).
Lemma whole_program_wp : forall (T : Type) (A : arith T) lg red qs p env st s,
  legion_ok lg -> legal_reduction A red -> (forall q, In q qs -> partition_disjoint lg q /\ partition_complete lg q) ->
  Forall (well_formed lg (declared lg qs) (length qs)) p -> (forall k, env k < next_fut st) ->
  wp (whole_program A lg red qs env p) (whole_post A lg qs p env st s) st s.
Proof.
  intros T A lg red qs p env st s Hlg Hred Hqs Hwf He.
  assert (Hq : forall q, In q qs -> is_disjoint lg q = true /\ is_complete lg q = true).
  { intros q Hin. destruct (Hqs q Hin) as [H1 H2]. split; [exact (proj2 (disjoint_all_spec (part_pieces lg q)) H1)|exact (proj2 (is_complete_spec lg q) H2)]. }
  set (vs := map (placed lg qs (next_region st)) (seq 0 (length qs))). set (V := fun v => nth v vs (declared lg qs v)).
  assert (EV : forall v, v < length qs -> V v = placed lg qs (next_region st) v).
  { intros v Hv. unfold V, vs. rewrite (nth_indep _ _ (placed lg qs (next_region st) 0)) by (rewrite map_length, seq_length; exact Hv). rewrite map_nth, seq_nth by exact Hv. reflexivity. }
  assert (Hcon : forall v, v < length qs -> constructed lg (V v)).
  { intros v Hv. rewrite EV by exact Hv. exists (nth v qs 0), (next_region st + v), 0. destruct (Hq _ (nth_In qs 0 Hv)) as [H1 H2]. unfold make_vector. rewrite H1, H2. reflexivity. }
  assert (Hdis : forall v w, v < length qs -> w < length qs -> v <> w -> distinct_storage (V v) (V w)).
  { intros v w Hv Hw N. rewrite !EV by assumption. left. cbn. lia. }
  assert (Hwf' : Forall (well_formed lg V (length qs)) p).
  { eapply Forall_impl; [|exact Hwf]. intros c. apply well_formed_layout. intros v Hv. rewrite EV by exact Hv. cbn. auto. }
  set (x := mk_values (fun k => s (LFut (env k))) (fun v q => s (at_point (V v) q))).
  assert (Hx : holds_values lg V (length qs) env s x) by (split; intros; reflexivity).
  assert (Esp : forall y, direct_vprog A lg (fun v => pv_space (V v)) x p y -> direct_vprog A lg (fun v => part_parent lg (nth v qs 0)) x p y).
  { intros y. replace (fun v => pv_space (V v)) with (fun v => part_parent lg (nth v qs 0)); [tauto|]. apply functional_extensionality. intros v.
    destruct (Nat.lt_ge_cases v (length qs)) as [Hv|Hv]; [rewrite EV by exact Hv; reflexivity|]. unfold V. rewrite (nth_overflow vs); [reflexivity|]. unfold vs. rewrite map_length, seq_length. exact Hv. }
  assert (W : wp (whole_program A lg red qs env p) (fun y st' s' => fst y = vs /\ post A lg V (length qs) p (mk_ist (next_fut st) (next_region st + length qs)) s x (snd y) st' s') st s).
  { unfold whole_program. apply wp_bind. apply wp_new_vectors; [exact Hq|]. fold vs. fold V. apply wp_bind.
    eapply wp_conseq; [apply (@vprog_spec T A lg red V (length qs) Hlg Hred Hcon Hdis p env (mk_ist (next_fut st) (next_region st + length qs)) s x Hwf' He Hx)|]. intros env' st' s' H. apply wp_ret. split; [reflexivity|exact H]. }
  eapply wp_conseq; [exact W|]. intros [vs' env'] st' s1 [Ev [x' [D [[H1 H2] [Ho [_ [_ O]]]]]]]. cbn [fst snd] in *. subst vs'. split; [cbn [fst]; unfold vs; rewrite map_length; apply seq_length|].
  split; [exact Ho|]. exists (fun v q => s (at_point (V v) q)), x'. split; [apply Esp; exact D|]. split; [intros k; apply H1|]. split.
  - intros v vec q Hn Hin. cbn [fst] in Hn. assert (Hv : v < length qs). { assert (Hn2 : nth_error vs v <> None) by congruence; apply nth_error_Some in Hn2. unfold vs in Hn2. rewrite map_length, seq_length in Hn2. exact Hn2. }
    assert (vec = V v) as -> by (unfold V; symmetry; apply nth_error_nth; exact Hn). apply H2; [exact Hv|]. rewrite EV by exact Hv. exact Hin.
  - intros r f q Hr. apply O. intros v Hv _ E2. rewrite EV in E2 by exact Hv. unfold at_point in E2. injection E2 as E2 _. cbn in E2. lia.
Qed.
Theorem C80_whole_programs : forall (T : Type) (A : arith T) lg red qs p env st s,
  legion_ok lg -> legal_reduction A red -> (forall q, In q qs -> partition_disjoint lg q /\ partition_complete lg q) ->
  Forall (well_formed lg (declared lg qs) (length qs)) p -> (forall k, env k < next_fut st) ->
  accepted (whole_program A lg red qs env p) st /\
  forall vs env' st' s', ends (whole_program A lg red qs env p) st s (vs, env') st' s' ->
    length vs = length qs /\
    exists uninitialised x', direct_vprog A lg (fun v => part_parent lg (nth v qs 0)) (mk_values (fun k => s (LFut (env k))) uninitialised) p x' /\
      (forall k, s' (LFut (env' k)) = scalars x' k) /\
      (forall v vec q, nth_error vs v = Some vec -> In q (is_points lg (part_parent lg (nth v qs 0))) -> s' (at_point vec q) = entries x' v q) /\
      (forall r f q, r < next_region st -> s' (LVec r f q) = s (LVec r f q)).
Proof.
  intros T A lg red qs p env st s Hlg Hred Hqs Hwf He. assert (W := @whole_program_wp T A lg red qs p env st s Hlg Hred Hqs Hwf He).
  split; [eapply wp_accepted; exact W|]. intros vs env' st' s' E. destruct (wp_ends W E) as [s1 [[H0 [_ [u [x' [D [H1 [H2 H3]]]]]]] Es]]. cbn [fst snd] in *.
  split; [exact H0|]. exists u, x'. split; [exact D|]. split; [intros k; rewrite Es; apply H1|]. split; [intros v vec q Hn Hin; rewrite Es; eapply H2; eassumption|].
  intros r f q Hr. rewrite Es. apply H3. exact Hr.
Qed.
(** *** what a whole program prints *)
Lemma fr_issue_exps T (A : arith T) env es : fresh_results (issue_exps A env es).
Proof. induction es as [|e es IH]; cbn [issue_exps]; [apply fr_ret|]. apply fr_bind; [apply issue_exp_fresh|]. intros f. apply fr_bind; [exact IH|]. intros fs. apply fr_ret. Qed.
Lemma fr_issue_vstmt T (A : arith T) lg red V env c : fresh_results (issue_vstmt A lg red V env c).
Proof.
  destruct c; cbn [issue_vstmt]; apply fr_bind; try (intros; apply fr_ret).
  - apply issue_exp_fresh.
  - apply fr_vector_dot.
  - apply (@fr_call T A lg (V v) (Fill c)).
  - apply issue_exp_fresh.
  - intros f. apply fr_bind; [apply (@fr_call T A lg (V v) (FillFuture f))|]. intros; apply fr_ret.
  - apply fr_copy.
  - apply issue_exp_fresh.
  - intros f. apply fr_bind; [apply fr_scal|]. intros; apply fr_ret.
  - apply fr_issue_exps.
  - intros f. apply fr_bind; [apply fr_axpy|]. intros; apply fr_ret.
  - apply fr_issue_exps.
  - intros f. apply fr_bind; [apply fr_xpay|]. intros; apply fr_ret.
  - apply fr_lift.
  - intros f. apply fr_bind; [apply fr_matvec|]. intros; apply fr_ret.
Qed.
Lemma fr_issue_vprog T (A : arith T) lg red V p : forall env, fresh_results (issue_vprog A lg red V env p).
Proof. induction p as [|c p IH]; intros env; cbn [issue_vprog]; [apply fr_ret|]. apply fr_bind; [apply fr_issue_vstmt|]. intros env'. apply IH. Qed.
Lemma fr_new_vectors T lg qs : fresh_results (new_vectors T lg qs).
Proof.
  induction qs as [|q qs IH]; cbn [new_vectors]; [apply fr_ret|]. apply fr_bind; [apply fr_bind; [apply fr_fresh_region|intros r; apply fr_lift]|]. intros v.
  apply fr_bind; [exact IH|]. intros vs. apply fr_ret.
Qed.
Lemma fr_whole_program T (A : arith T) lg red qs env p : fresh_results (whole_program A lg red qs env p).
Proof. unfold whole_program. apply fr_bind; [apply fr_new_vectors|]. intros vs. apply fr_bind; [apply fr_issue_vprog|]. intros env'. apply fr_ret. Qed.
(** the program followed by print() of the scalar variables [vars], one after the other *)
Theorem C80_prints : forall (T : Type) (A : arith T) lg red qs p env vars st s,
  legion_ok lg -> legal_reduction A red -> (forall q, In q qs -> partition_disjoint lg q /\ partition_complete lg q) ->
  Forall (well_formed lg (declared lg qs) (length qs)) p -> (forall k, env k < next_fut st) ->
  exists y prints lns st' uninitialised x',
    (let* y := whole_program A lg red qs env p in let* ns := print_in_order A (map (snd y) vars) in ret (y, ns)) st = Ok (y, prints, lns, st') /\
    direct_vprog A lg (fun v => part_parent lg (nth v qs 0)) (mk_values (fun k => s (LFut (env k))) uninitialised) p x' /\
    forall tr, execution (map (@op_of _) lns) tr -> shown prints (map snd tr) s = map (scalars x') vars.
Proof.
  intros T A lg red qs p env vars st s Hlg Hred Hqs Hwf He. assert (W := @whole_program_wp T A lg red qs p env st s Hlg Hred Hqs Hwf He).
  destruct W as [y0 [lns0 [st0 [E0 [G0 [H0 [Ho [u [x' [D [H1 _]]]]]]]]]]].
  destruct (@C78_prints_of_specified T A _ (whole_program A lg red qs env p) (fun y => map (snd y) vars) (fun _ => map (scalars x') vars) st s (fr_whole_program A lg red qs env p))
    as [y [prints [lns [st' [E [_ H]]]]]].
  - exists y0, lns0, st0. split; [exact E0|]. split; [exact G0|]. split.
    + intros f Hf. apply in_map_iff in Hf. destruct Hf as [k [<- _]]. apply Ho.
    + rewrite map_map. apply map_ext. exact H1.
  - exists y, prints, lns, st', u, x'. split; [exact E|]. split; [exact D|exact H].
Qed.

(** *** Test02VectorOperations *)
Lemma vector_test_well_formed T lg q (fu fv one mone mhalf : T) : Forall (well_formed lg (declared lg [q; q; q]) 3) (vector_test fu fv one mone mhalf).
Proof.
  assert (L : forall v w, v < 3 -> w < 3 -> compatible_layout (declared lg [q; q; q] v) (declared lg [q; q; q] w)).
  { intros [|[|[|v]]] [|[|[|w]]] Hv Hw; try lia; repeat split. }
  repeat constructor; cbn; try lia; apply L; lia.
Qed.
(** the printed value is a reduction of partial sums of the squares of one element *)
Lemma vector_test_value T (A : arith T) lg space x0 fu fv one mone mhalf x' : direct_vprog A lg space x0 (vector_test fu fv one mone mhalf) x' ->
  let w := afma A one fv fu in let v := afma A mone fv fu in let u := afma A mhalf w (afma A mhalf v fu) in
  exists groups, Permutation (concat groups) (is_points lg (space 0)) /\ reduces_to A (map (group_dot A (fun _ => u) (fun _ => u)) groups) (scalars x' 0).
Proof.
  intros D. unfold vector_test in D.
  repeat match goal with H : direct_vprog _ _ _ _ (_ :: _) _ |- _ => inversion H; clear H; subst; cbn [scalars entries] in * | H : direct_stmt _ _ _ _ _ (_ _) _ |- _ => inversion H; clear H; subst; cbn [scalars entries] in * end.
  match goal with H : direct_vprog _ _ _ _ [] _ |- _ => inversion H; subst; clear H end. 
  repeat match goal with H : coefficient _ _ _ |- _ => inversion H; clear H; subst end. eexists. split; eassumption.
Qed.
Lemma zero_reduction T (A : arith T) l r : aadd A (a0 A) (a0 A) = a0 A -> (forall a, In a l -> a = a0 A) -> reduces_to A l r -> r = a0 A.
Proof.
  intros H0 Hl H. induction H as [|x|l l1 l2 x y Hp H1 IH1 H2 IH2].
  - reflexivity.
  - apply Hl. left. reflexivity.
  - assert (Hi : forall a, In a (l1 ++ l2) -> a = a0 A) by (intros a Ha; apply Hl; eapply Permutation_in; [apply Permutation_sym; exact Hp|exact Ha]).
    rewrite IH1, IH2; [exact H0| |]; intros a Ha; apply Hi; apply in_or_app; [right|left]; exact Ha.
Qed.
Lemma zero_dot T (A : arith T) u groups r : aadd A (a0 A) (a0 A) = a0 A -> amul A u u = a0 A -> reduces_to A (map (group_dot A (fun _ => u) (fun _ => u)) groups) r -> r = a0 A.
Proof.
  intros H0 Hu. apply zero_reduction; [exact H0|]. intros a Ha. apply in_map_iff in Ha. destruct Ha as [g [<- _]]. unfold group_dot.
  induction g as [|p g IH]; cbn; [reflexivity|]. rewrite Hu, H0. rewrite Hu in IH. exact IH.
Qed.
(** the C++ conversion of a double constant to the entry type *)
Definition convert (fp fe : Z) (x : spec_float) : spec_float :=
  match x with S754_finite s m e => binary_normalize fp fe (SpecFloat.cond_Zopp s (Zpos m)) e s | _ => x end.
(** the double nearest to a decimal literal n / d *)
Definition literal (n d : Z) : spec_float := SFdiv 53 1024 (binary_normalize 53 1024 n 0 false) (binary_normalize 53 1024 d 0 false).
(** Test02 prints 0 in float and in double, for every partition and every order of the reduction, as /repo/test_all.py:223 expects *)
Theorem C77_vector_test : forall fp fe, (fp, fe) = (24, 128)%Z \/ (fp, fe) = (53, 1024)%Z ->
  forall lg red q env st s, legion_ok lg -> legal_reduction (ieee fp fe) red -> partition_disjoint lg q -> partition_complete lg q -> (forall k, env k < next_fut st) ->
  let c n d := convert fp fe (literal n d) in
  exists y prints lns st',
    (let* y := whole_program (ieee fp fe) lg red [q; q; q] env (vector_test (c 15 10) (c 27 10) (c 1 1) (c (-1) 1) (c (-5) 10))%Z in
     let* ns := print_in_order (ieee fp fe) [snd y 0] in ret (y, ns)) st = Ok (y, prints, lns, st') /\
    forall tr, execution (map (@op_of _) lns) tr -> shown prints (map snd tr) s = [S754_zero false].
Proof.
  intros fp fe Hf lg red q env st s Hlg Hred Hd Hc He c.
  destruct (@C80_prints _ (ieee fp fe) lg red [q; q; q] (vector_test (c 15 10) (c 27 10) (c 1 1) (c (-1) 1) (c (-5) 10))%Z env [0] st s Hlg Hred) as [y [prints [lns [st' [u [x' [E [D H]]]]]]]].
  - intros q' [<-|[<-|[<-|[]]]]; split; assumption.
  - apply vector_test_well_formed.
  - exact He.
  - exists y, prints, lns, st'. split; [exact E|]. intros tr Ht. rewrite (H tr Ht). cbn [map]. f_equal.
    destruct (@vector_test_value _ (ieee fp fe) lg _ _ _ _ _ _ _ x' D) as [groups [_ R]]. change (S754_zero false) with (a0 (ieee fp fe)). eapply (@zero_dot _ (ieee fp fe)); [reflexivity| |exact R].
    unfold c. destruct Hf as [Hf|Hf]; injection Hf as -> ->; vm_compute; reflexivity.
Qed.
(** in exact arithmetic the result is 0 whatever the two vectors are filled with *)
Theorem C77_vector_test_exact : forall (a b : R) lg red q env st s, legion_ok lg -> legal_reduction exact red -> partition_disjoint lg q -> partition_complete lg q -> (forall k, env k < next_fut st) ->
  exists y prints lns st',
    (let* y := whole_program exact lg red [q; q; q] env (vector_test (Some a) (Some b) (Some 1) (Some (-1)) (Some (-(1/2))))%R in
     let* ns := print_in_order exact [snd y 0] in ret (y, ns)) st = Ok (y, prints, lns, st') /\
    forall tr, execution (map (@op_of _) lns) tr -> shown prints (map snd tr) s = [Some 0%R].
Proof.
  intros a b lg red q env st s Hlg Hred Hd Hc He.
  destruct (@C80_prints _ exact lg red [q; q; q] (vector_test (Some a) (Some b) (Some 1) (Some (-1)) (Some (-(1/2))))%R env [0] st s Hlg Hred) as [y [prints [lns [st' [u [x' [E [D H]]]]]]]].
  - intros q' [<-|[<-|[<-|[]]]]; split; assumption.
  - apply vector_test_well_formed.
  - exact He.
  - exists y, prints, lns, st'. split; [exact E|]. intros tr Ht. rewrite (H tr Ht). cbn [map]. f_equal.
    destruct (@vector_test_value _ exact lg _ _ _ _ _ _ _ x' D) as [groups [_ R]]. change (Some 0%R) with (a0 exact). eapply (@zero_dot _ exact); [| |exact R]; cbn; f_equal; field.
Qed.

(** A program with all kinds of variables, on two points in two pieces with the matrix [[2,-1],[-1,2]]:
    c = 2; u = c * 3; v = 1; v += M u; v.axpy(-c, u); c = u.dot(v); prints -60 *)
Example C80_example : forall st s env, (forall k, env k < next_fut st) ->
  let p := [SSet 0 (Const (Some 2)); VFillScalar 0 (Mul (Var 0) (Const (Some 3))); VFill 1 (Some 1); VMatvec 1 (CSR m2_csr) 0;
            VAxpy 1 [Neg (Var 0)] 0; SDot 0 0 1]%R in
  let red := fun _ : nat => fold_right (aadd exact) (a0 exact) in
  Forall (well_formed lg2 (declared lg2 [3; 3]) 2) p /\ legal_reduction exact red /\
  exists y prints lns st', (let* y := whole_program exact lg2 red [3; 3] env p in let* ns := print_in_order exact [snd y 0] in ret (y, ns)) st = Ok (y, prints, lns, st') /\
    forall tr, execution (map (@op_of _) lns) tr -> shown prints (map snd tr) s = [Some (-60)%R].
Proof.
  intros st s env He p red.
  assert (Hwf : Forall (well_formed lg2 (declared lg2 [3; 3]) 2) p).
  { assert (L : forall v w, v < 2 -> w < 2 -> compatible_layout (declared lg2 [3; 3] v) (declared lg2 [3; 3] w)) by (intros [|[|v]] [|[|w]] Hv Hw; try lia; repeat split).
    unfold p. constructor; [exact I|]. constructor; [cbn; lia|]. constructor; [cbn; lia|]. constructor.
    { split; [lia|]. split; [lia|]. split; [lia|]. split; [exact (proj1 C09_C10_example)|reflexivity]. }
    constructor; [split; [lia|]; split; [lia|]; split; [lia|]; split; [apply L; lia|cbn; lia]|]. constructor; [split; [lia|]; split; [lia|]; apply L; lia|constructor]. }
  assert (Hr : legal_reduction exact red) by apply fold_right_legal.
  split; [exact Hwf|]. split; [exact Hr|].
  destruct (@C80_prints _ exact lg2 red [3; 3] p env [0] st s lg2_ok Hr) as [y [prints [lns [st' [u [x' [E [D H]]]]]]]].
  - intros q [<-|[<-|[]]]; (split; [exact (proj1 (disjoint_all_spec (part_pieces lg2 3)) eq_refl)|apply is_complete_spec; reflexivity]).
  - exact Hwf.
  - exact He.
  - exists y, prints, lns, st'. split; [exact E|]. intros tr Ht. rewrite (H tr Ht). cbn [map]. f_equal. clear H Ht E. unfold p in D.
    repeat match goal with H : direct_vprog _ _ _ _ (_ :: _) _ |- _ => inversion H; clear H; subst; cbn [scalars entries] in * | H : direct_stmt _ _ _ _ _ (_ _) _ |- _ => inversion H; clear H; subst; cbn [scalars entries] in * end.
    match goal with H : direct_vprog _ _ _ _ [] _ |- _ => inversion H; subst; clear H end.
    repeat match goal with H : coefficient _ _ _ |- _ => inversion H; clear H; subst end. cbn [scalars]. unfold set at 1. cbn [Nat.eqb].
    match goal with P1 : Permutation (concat ?g1) _, R1 : reduces_to _ (map _ ?g1) ?a |- _ => rewrite (exact_dot_unique _ _ _ P1 R1) end.
    cbn -[Rplus Rmult Ropp]. f_equal. lra.
Qed.
