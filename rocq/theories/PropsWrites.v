(** PropsWrites: property C88 (what a solver run leaves alone). *)
From Verif Require Import Base Index Outcome Sched Async Arith Launch Vector PartitionSpec VectorFacts LaunchFacts Matrix MatrixSpec MatrixFacts
  MatvecFacts Builder BuilderFacts Exec Planner PlannerFacts PlannerSetup Solvers PropsVector PropsPlanner PropsSolver InitFacts WriteFacts.
From Coq Require Import Reals.
From Verif Require PropsMatrix PropsInit SolverExample.
Set Implicit Arguments.

(** ** C88.  Specification: the storage a solver run started in allocator state [st] may change: the entries of the solution vectors, regions created by the
    run itself, and the scalars the run itself computes. *)
Definition may_change {T} (lg : legion) (cs : list (setup_call T)) (st : ist) (l : loc) : Prop :=
  match l with
  | LVec r f p => next_region st <= r \/ exists v, In v (sols_of cs) /\ pv_region v = r /\ pv_fid v = f /\ In p (is_points lg (pv_space v))
  | LFut n => next_fut st <= n
  | LPart n _ => next_fut st <= n
  end.
(** The run is permitted to write nothing else, and at no moment of any execution, finished or not, has anything else changed. *)
Definition leaves_alone {T X} (m : M T X) (st : ist) (allowed : loc -> Prop) : Prop :=
  accepted m st /\ forall x lns st', m st = Ok (x, lns, st') ->
    (forall ln l, In ln lns -> declared_writes ln l -> allowed l) /\
    forall tr rem s l, partial_run (map (@op_of T) lns) (map (@o_tasks loc T) (map (@op_of T) lns)) tr rem -> ~ allowed l -> Sched.run loc_dec (map snd tr) s l = s l.

Lemma partial_run_steps L V (ops : list (op L V)) rem tr rem' : partial_run ops rem tr rem' -> forall a, In a (map snd tr) -> exists ts t, In ts rem /\ In t ts /\ In a t.
Proof.
  induction 1 as [rem|pre ts1 a t ts2 post tr rem' Hf H IH]; intros b Hb; [destruct Hb|]. cbn [map snd] in Hb. destruct Hb as [<-|Hb].
  - exists (ts1 ++ (a :: t) :: ts2), (a :: t). split; [apply in_or_app; right; left; reflexivity|]. split; [apply in_or_app; right; left; reflexivity|left; reflexivity].
  - destruct (IH b Hb) as (ts & t' & H1 & H2 & H3). apply in_app_or in H1. destruct H1 as [H1|[<-|H1]].
    + exists ts, t'. split; [apply in_or_app; left; exact H1|auto].
    + exists (ts1 ++ (a :: t) :: ts2). apply in_app_or in H2. destruct H2 as [H2|[<-|H2]].
      * exists t'. split; [apply in_or_app; right; left; reflexivity|]. split; [apply in_or_app; left; exact H2|exact H3].
      * exists (a :: t). split; [apply in_or_app; right; left; reflexivity|]. split; [apply in_or_app; right; left; reflexivity|right; exact H3].
      * exists t'. split; [apply in_or_app; right; left; reflexivity|]. split; [apply in_or_app; right; right; exact H2|exact H3].
    + exists ts, t'. split; [apply in_or_app; right; right; exact H1|auto].
Qed.
Lemma wr_leaves_alone T X (m : M T X) Q Q' st (s0 : store loc T) (allowed : loc -> Prop) : wp m Q st s0 -> wr allowed (next_fut st) (next_region st) m Q' -> leaves_alone m st allowed.
Proof.
  intros W H. split; [eapply wp_accepted; exact W|]. intros x lns st' E. destruct W as (x0 & lns0 & st0 & E0 & G & _). rewrite E in E0. injection E0 as <- <- <-.
  destruct (H st x lns st') as [_ [F _]]; [split; lia|exact E|]. rewrite Forall_forall in F, G. split; [intros ln l Hin; apply F; exact Hin|].
  intros tr rem s l Hr Hl. apply run_frame. intros a Ha Et. apply Hl. rewrite <- Et. destruct (partial_run_steps Hr a Ha) as (ts & t & H1 & H2 & H3).
  rewrite map_map in H1. apply in_map_iff in H1. destruct H1 as [ln [<- Hin]]. apply (F ln Hin). destruct (G ln Hin) as [Gd _]. apply (privileges_well_declared Gd t a H2 H3).
Qed.
Section Solvers.
Variable T : Type.
Variable A : arith T.
Variable lg : legion.
Variable red : nat -> list T -> T.
Variable cs : list (setup_call T).
Hypothesis Hlg : legion_ok lg.
Lemma sol_row_ok st pl0 : set_up lg cs st pl0 -> row_ok lg (may_change lg cs st) pl0 SOL.
Proof.
  intros Hs vs v E Hv. cbn in E. injection E as <-. destruct (set_up_facts Hs) as (_ & _ & Es & _). rewrite Es in Hv. intros p Hp. right. exists v. split; [exact Hv|]. split; [reflexivity|]. split; [reflexivity|].
  assert (Hc : constructed lg v) by (apply Hs; apply in_or_app; left; exact Hv). destruct (constructed_part Hc) as [_ Hsp]. apply in_concat in Hp. destruct Hp as [piece [H1 H2]].
  rewrite Hsp. apply (proj2 Hlg) in H1. apply H1. exact H2.
Qed.
End Solvers.

Theorem C88_cg : forall (T : Type) (A : arith T) (lg : legion) (red : nat -> list T -> T) (cs : list (setup_call T)) st pl0 k,
  legion_ok lg -> set_up lg cs st pl0 -> 0 < length (sols_of cs) -> leaves_alone (cg_run A lg red pl0 k) st (may_change lg cs st).
Proof.
  intros T A lg red cs st pl0 k Hlg Hs Hn. eapply wr_leaves_alone; [apply (@cg_run_good T A lg red cs Hlg Hn st pl0 (fun _ => a0 A) k Hs)|].
  apply wr_cg_run; [auto|auto|cbn; auto|eapply sol_row_ok; eassumption].
Qed.
Theorem C88_bicgstab : forall (T : Type) (A : arith T) (lg : legion) (red : nat -> list T -> T) (cs : list (setup_call T)) st pl0 k,
  legion_ok lg -> set_up lg cs st pl0 -> 0 < length (sols_of cs) -> leaves_alone (bicg_run A lg red pl0 k) st (may_change lg cs st).
Proof.
  intros T A lg red cs st pl0 k Hlg Hs Hn. eapply wr_leaves_alone; [apply (@bicg_run_good T A lg red cs Hlg Hn st pl0 (fun _ => a0 A) k Hs)|].
  apply wr_bicg_run; [auto|auto|cbn; auto|eapply sol_row_ok; eassumption].
Qed.
Theorem C88_gmres : forall (T : Type) (A : arith T) (lg : legion) (red : nat -> list T -> T) (cs : list (setup_call T)) st pl0 restart k,
  legion_ok lg -> set_up lg cs st pl0 -> 0 < length (sols_of cs) -> leaves_alone (gmres_run A lg red pl0 restart k) st (may_change lg cs st).
Proof.
  intros T A lg red cs st pl0 restart k Hlg Hs Hn. eapply wr_leaves_alone; [apply (@gmres_run_good T A lg red cs Hlg Hn st pl0 (fun _ => a0 A) restart k Hs)|].
  apply wr_gmres_run; [auto|auto|cbn; auto|eapply sol_row_ok; eassumption].
Qed.
(** The right-hand sides, every other vector that existed before the run and is not a solution vector, and every scalar computed before it, keep their values. *)
Theorem C88_rhs_kept : forall (T X : Type) (m : M T X) (lg : legion) (cs : list (setup_call T)) st pl0 s x st' s',
  set_up lg cs st pl0 -> leaves_alone m st (may_change lg cs st) -> ends m st s x st' s' ->
  (forall v p, In v (rhss_of cs) -> s' (at_point v p) = s (at_point v p)) /\
  (forall v p, pv_region v < next_region st -> (forall w, In w (sols_of cs) -> storage w <> storage v) -> s' (at_point v p) = s (at_point v p)) /\
  (forall n, n < next_fut st -> s' (LFut n) = s (LFut n)).
Proof.
  intros T X m lg cs st pl0 s x st' s' Hs [_ H] [lns [E [tr [[rem [Hr _]] Hs']]]]. destruct (H x lns st' E) as [_ K].
  assert (G : forall v p, pv_region v < next_region st -> (forall w, In w (sols_of cs) -> storage w <> storage v) -> s' (at_point v p) = s (at_point v p)).
  { intros v p Hv Hw. rewrite Hs'. apply (K tr rem s _ Hr). intros [C|(w & W1 & W2 & W3 & _)]; [lia|]. apply (Hw w W1). unfold storage. congruence. }
  split; [|split; [exact G|]].
  - intros v p Hv. apply G; [apply Hs; apply in_or_app; right; exact Hv|]. intros w Hw Ew.
    assert (Nd := wf_storage (proj1 Hs)). rewrite map_app in Nd. apply in_split in Hv. destruct Hv as [r1 [r2 Er]]. rewrite Er, map_app in Nd. cbn [map] in Nd.
    rewrite app_assoc in Nd. apply NoDup_remove_2 in Nd. apply Nd. apply in_or_app. left. apply in_or_app. left. rewrite <- Ew. apply in_map. exact Hw.
  - intros n Hn. rewrite Hs'. apply (K tr rem s _ Hr). cbn. lia.
Qed.

(** ** Example: the system diag(2, 3) x = (1, 1) meets the hypotheses; its right-hand side survives any number of steps.  A program that copies the solution into the right-hand side is refused. *)
Definition overwrite_rhs (pl0 : planner f64) : M f64 unit := pl_copy binary64 PropsMatrix.lg2 pl0 RHS SOL.
Example C88_example :
  (forall red k, exists pl0, set_up PropsMatrix.lg2 (SolverExample.diag_calls 2%R 3%R) PropsPlanner.ex_st pl0 /\ 0 < length (rhss_of (SolverExample.diag_calls 2%R 3%R)) /\
    leaves_alone (cg_run exact PropsMatrix.lg2 red pl0 k) PropsPlanner.ex_st (may_change PropsMatrix.lg2 (SolverExample.diag_calls 2%R 3%R) PropsPlanner.ex_st)) /\
  exists pl0, do_calls PropsMatrix.lg2 (new_planner f64) PropsInit.f64_calls = Ok pl0 /\ accepted (overwrite_rhs pl0) PropsPlanner.ex_st /\
    ~ leaves_alone (overwrite_rhs pl0) PropsPlanner.ex_st (may_change PropsMatrix.lg2 PropsInit.f64_calls PropsPlanner.ex_st).
Proof.
  split.
  - intros red k. destruct (SolverExample.diag_set_up 2%R 3%R) as [pl0 Hs]. exists pl0. split; [exact Hs|]. split; [cbn; lia|].
    apply C88_cg; [exact PropsMatrix.lg2_ok|exact Hs|apply SolverExample.diag_some].
  - eexists. split; [vm_compute; reflexivity|]. match goal with |- accepted ?m ?st /\ _ => let r := eval vm_compute in (m st) in assert (E : m st = r) by (vm_compute; reflexivity) end.
    split; [eexists; exact E|]. intros [_ H]. destruct (H _ _ _ E) as [H' _]. specialize (H' _ (LVec 20 0 [0%Z]) (or_introl eq_refl)). cbn in H'. destruct H' as [C|(v & Hv & E' & _)].
    + eexists. split; [right; left; reflexivity|]. cbn. repeat split. left. reflexivity.
    + vm_compute in C. lia.
    + cbn in Hv. intuition subst; discriminate.
Qed.
