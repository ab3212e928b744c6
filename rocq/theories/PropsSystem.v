(** PropsSystem: property C101 (a solver's results depend only on the assembled system, and scale with it). *)
From Coq Require Import Reals Lra.
From Verif Require Import Base Index Outcome Sched Async Arith Launch Vector PartitionSpec VectorFacts LaunchFacts Matrix MatrixSpec MatrixFacts
  MatvecFacts Builder BuilderFacts Exec ExactSum LinAlg CGSpec BiCGSpec GMRESSpec Planner PlannerFacts PlannerSetup Solvers PropsVector PropsMatrix PropsPlanner
  PropsSolver SolverFacts PropsCG PropsBiCG PropsGMRES.
Set Implicit Arguments.

(** ** The textbook iterations on two proportional systems *)
Section Math.
Local Open Scope R_scope.
Variable P : Type.
Variables U U' : list P.
Hypothesis HU : Permutation U U'.
Variables a a' : P -> P -> R.
Variables mu c : R.
Hypothesis Hmu : mu <> 0.
Hypothesis Hc : c <> 0.
Hypothesis Ha : forall u v, In u U -> In v U -> a' u v = mu * a u v.
Variables x0 b x0' b' : P -> R.
Hypothesis Hx0 : forall u, In u U -> x0' u = c / mu * x0 u.
Hypothesis Hb : forall u, In u U -> b' u = c * b u.

Definition times (k : R) (f f' : P -> R) : Prop := forall u, In u U -> f' u = k * f u.
Lemma times_ip k l f f' g g' : times k f f' -> times l g g' -> ip U' f' g' = k * l * ip U f g.
Proof.
  intros F G. unfold ip. rewrite <- (Rsum_perm _ HU), <- Rsum_scal. apply Rsum_ext. intros u Hu. rewrite (F u Hu), (G u Hu). ring.
Qed.
Lemma times_app k f f' : times k f f' -> times (k * mu) (app_op U a f) (app_op U' a' f').
Proof.
  intros F u Hu. unfold app_op. rewrite <- (Rsum_perm _ HU), <- Rsum_scal. apply Rsum_ext. intros v Hv. rewrite (F v Hv), (Ha u v Hu Hv). ring.
Qed.

Lemma cg_times k : (forall j, (j < k)%nat -> cg_defined U a x0 b j) ->
  times (c / mu) (it_x (cg_iter U a x0 b k)) (it_x (cg_iter U' a' x0' b' k)) /\
  times c (it_r (cg_iter U a x0 b k)) (it_r (cg_iter U' a' x0' b' k)) /\
  times c (it_p (cg_iter U a x0 b k)) (it_p (cg_iter U' a' x0' b' k)).
Proof.
  induction k as [|k IH]; intros Hd; [split; [|split]; intros u Hu; cbn [cg_iter it_x it_r it_p]; auto|].
  destruct IH as (X & R & Q); [intros j Hj; apply Hd; lia|]. destruct (Hd k) as [D1 D2]; [lia|].
  cbn [cg_iter]. unfold cg_next. cbn zeta. cbn [it_x it_r it_p].
  set (t := cg_iter U a x0 b k) in *. set (t' := cg_iter U' a' x0' b' k) in *.
  pose proof (times_app Q) as AQ. pose proof (times_ip Q AQ) as PAP. pose proof (times_ip R R) as RR.
  rewrite RR, PAP. set (al := ip U (it_r t) (it_r t) / ip U (it_p t) (app_op U a (it_p t))).
  assert (EA : c * c * ip U (it_r t) (it_r t) / (c * (c * mu) * ip U (it_p t) (app_op U a (it_p t))) = al / mu) by (unfold al; field; auto).
  rewrite EA.
  assert (R' : times c (fun u => it_r t u - al * app_op U a (it_p t) u) (fun u => it_r t' u - al / mu * app_op U' a' (it_p t') u)).
  { intros u Hu. rewrite (R u Hu), (AQ u Hu). field. auto. }
  split; [|split].
  - intros u Hu. rewrite (X u Hu), (Q u Hu). field. auto.
  - exact R'.
  - intros u Hu. rewrite (times_ip R' R'), (Q u Hu), (R' u Hu). field. auto.
Qed.
Lemma cg_defined_times k : (forall j, (j <= k)%nat -> cg_defined U a x0 b j) -> cg_defined U' a' x0' b' k.
Proof.
  intros Hd. destruct (@cg_times k) as (_ & R & Q); [intros j Hj; apply Hd; lia|]. destruct (Hd k (le_n k)) as [D1 D2].
  unfold cg_defined. rewrite (times_ip Q (times_app Q)), (times_ip R R). split; repeat apply Rmult_integral_contrapositive_currified; auto.
Qed.

Notation S1 := (bicg_iter U a x0 b).
Notation S2 := (bicg_iter U' a' x0' b').
(** what determines the next step *)
Definition ready (t : biter P) (t' : biter P) : Prop :=
  times (c / mu) (b_x t) (b_x t') /\ times c (b_r t) (b_r t') /\ times c (b_p' U b t) (b_p' U' b' t').
Definition full (t t' : biter P) : Prop :=
  times (c / mu) (b_x t) (b_x t') /\ times c (b_r t) (b_r t') /\ times c (b_p t) (b_p t') /\ times (c * mu) (b_v t) (b_v t') /\
  b_rho t' = c * c * b_rho t /\ b_alpha t' = b_alpha t / mu /\ b_omega t' = b_omega t / mu.
Definition half (t t' : biter P) : Prop :=
  times (c * mu) (b_v' U a b t) (b_v' U' a' b' t') /\ b_rho' U' b' t' = c * c * b_rho' U b t /\ ip U' b' (b_v' U' a' b' t') = c * (c * mu) * ip U b (b_v' U a b t).
Lemma half_ready t t' : ready t t' -> half t t'.
Proof.
  intros (X & R & Q). pose proof (times_app Q) as V. split; [exact V|]. split; [exact (times_ip Hb R)|exact (times_ip Hb V)].
Qed.
Lemma full_ready t t' : full t t' -> half_defined U a b t -> ready t t'.
Proof.
  intros (X & R & Q & V & Er & Eal & Eo) (D1 & D2 & _). split; [exact X|]. split; [exact R|]. intros u Hu. unfold b_p', b_beta, b_rho'.
  rewrite (times_ip Hb R), Er, Eal, Eo, (R u Hu), (Q u Hu), (V u Hu). field. auto.
Qed.
Lemma mid_times t t' : ready t t' -> ip U b (b_v' U a b t) <> 0 ->
  b_alpha' U' a' b' t' = b_alpha' U a b t / mu /\ times c (b_s U a b t) (b_s U' a' b' t') /\ times (c * mu) (b_t U a b t) (b_t U' a' b' t').
Proof.
  intros H D. destruct (half_ready H) as (V & E1 & E2). destruct H as (X & R & Q).
  assert (EA : b_alpha' U' a' b' t' = b_alpha' U a b t / mu) by (unfold b_alpha'; rewrite E1, E2; field; auto).
  assert (ES : times c (b_s U a b t) (b_s U' a' b' t')).
  { intros u Hu. unfold b_s. rewrite EA, (R u Hu), (V u Hu). field. auto. }
  split; [exact EA|]. split; [exact ES|exact (times_app ES)].
Qed.
Lemma next_full t t' : ready t t' -> ip U b (b_v' U a b t) <> 0 -> ip U (b_t U a b t) (b_t U a b t) <> 0 -> full (bicg_next U a b t) (bicg_next U' a' b' t').
Proof.
  intros H D1 D2. destruct (mid_times H D1) as (EA & ES & ET). destruct (half_ready H) as (V & E1 & E2). destruct H as (X & R & Q).
  assert (EO : b_omega' U' a' b' t' = b_omega' U a b t / mu) by (unfold b_omega'; rewrite (times_ip ET ES), (times_ip ET ET); field; auto).
  unfold full, bicg_next. cbn [b_x b_r b_p b_v b_rho b_alpha b_omega].
  split; [intros u Hu; rewrite EA, EO, (X u Hu), (Q u Hu), (ES u Hu); field; auto|].
  split; [intros u Hu; rewrite EO, (ES u Hu), (ET u Hu); field; auto|].
  split; [exact Q|]. split; [exact V|]. split; [exact E1|]. split; [exact EA|exact EO].
Qed.
Lemma ready_0 : ready (S1 0) (S2 0).
Proof.
  split; [exact Hx0|]. split; [exact Hb|]. intros u Hu. unfold b_p', b_beta. cbn [bicg_iter b_r b_p b_v b_rho b_alpha b_omega]. rewrite (Hb u Hu). unfold Rdiv. ring.
Qed.
Lemma bicg_times k : (forall j, (j < k)%nat -> bicg_defined U a x0 b j) ->
  times (c / mu) (b_x (S1 k)) (b_x (S2 k)) /\ times c (b_r (S1 k)) (b_r (S2 k)) /\
  (half_defined U a b (S1 k) -> ready (S1 k) (S2 k) /\ half_defined U' a' b' (S2 k)) /\
  (0 < k -> full (S1 k) (S2 k))%nat.
Proof.
  induction k as [|k IH]; intros Hd.
  - split; [exact Hx0|]. split; [exact Hb|]. split; [|lia]. intros (D1 & D2 & D3). split; [exact ready_0|]. destruct (half_ready ready_0) as (_ & _ & E).
    unfold half_defined. rewrite E. cbn [bicg_iter b_rho b_omega] in *. split; [exact D1|]. split; [exact D2|]. repeat apply Rmult_integral_contrapositive_currified; auto.
  - destruct IH as (_ & _ & H & _); [intros j Hj; apply Hd; lia|]. destruct (Hd k) as [D1 D2]; [lia|]. destruct (H D1) as [HR _].
    assert (F : full (S1 (S k)) (S2 (S k))) by (cbn [bicg_iter]; apply next_full; [exact HR|apply D1|exact D2]).
    split; [apply F|]. split; [apply F|]. split; [|intros _; exact F]. intros D. pose proof (full_ready F D) as Y. split; [exact Y|].
    destruct (half_ready Y) as (_ & _ & E). destruct F as (_ & _ & _ & _ & Er & _ & Eo). destruct D as (D3 & D4 & D5). unfold half_defined. rewrite E, Er, Eo.
    split; [repeat apply Rmult_integral_contrapositive_currified; auto|]. split; [|repeat apply Rmult_integral_contrapositive_currified; auto].
    unfold Rdiv. apply Rmult_integral_contrapositive_currified; [exact D4|apply Rinv_neq_0_compat; exact Hmu].
Qed.
Lemma bicg_defined_times k : (forall j, (j <= k)%nat -> bicg_defined U a x0 b j) -> bicg_defined U' a' x0' b' k.
Proof.
  intros Hd. destruct (@bicg_times k) as (_ & _ & H & _); [intros j Hj; apply Hd; lia|]. destruct (Hd k (le_n k)) as [D1 D2]. destruct (H D1) as [Y D].
  split; [exact D|]. destruct (mid_times Y) as (_ & _ & ET); [apply D1|]. rewrite (times_ip ET ET). repeat apply Rmult_integral_contrapositive_currified; auto.
Qed.
End Math.

(** ** The Arnoldi process on two proportional systems (positive factors) *)
Section Arnoldi.
Local Open Scope R_scope.
Variable P : Type.
Variables U U' : list P.
Hypothesis HU : Permutation U U'.
Variables a a' : P -> P -> R.
Variables mu c : R.
Hypothesis Hmu : 0 < mu.
Hypothesis Hc : 0 < c.
Hypothesis Ha : forall u v, In u U -> In v U -> a' u v = mu * a u v.
Variables r r' : P -> R.
Hypothesis Hr : times U c r r'.

Lemma times_norm k f f' : 0 < k -> times U k f f' -> norm U' f' = k * norm U f.
Proof.
  intros Hk F. unfold norm. rewrite (times_ip HU F F), sqrt_mult; [|nra|apply ip_pos]. rewrite sqrt_square by lra. reflexivity.
Qed.
Lemma times_normalise k f f' : 0 < k -> times U k f f' -> ip U f f <> 0 -> times U 1 (normalise U f) (normalise U' f').
Proof.
  intros Hk F D u Hu. unfold normalise. rewrite (times_norm Hk F), (F u Hu). pose proof (norm_pos _ _ D). field. split; lra.
Qed.
Lemma times_project f f' n v v' k : (forall i, (i < n)%nat -> times U 1 (f i) (f' i)) -> times U k v v' -> times U k (project_out U f n v) (project_out U' f' n v').
Proof.
  intros F V u Hu. unfold project_out. rewrite (V u Hu). rewrite Rmult_minus_distr_l, <- Rsum_scal. f_equal. apply Rsum_ext. intros i Hi. apply in_seq in Hi.
  rewrite (times_ip HU (F i ltac:(lia)) V), (F i ltac:(lia) u Hu). ring.
Qed.
Lemma arnoldi_times m : arnoldi_defined U a r m -> forall i, (i < m \/ i = 0)%nat -> forall j, (j <= i)%nat -> times U 1 (q U a r j) (q U' a' r' j).
Proof.
  intros [D0 D]. induction i as [|i IH]; intros Hi j Hj.
  - replace j with 0%nat by lia. exact (times_normalise Hc Hr D0).
  - destruct (Nat.eq_dec j (S i)) as [-> |N]; [|apply IH; lia]. intros u Hu. rewrite !q_succ.
    apply times_normalise with (k := mu); [exact Hmu| |apply D; lia|exact Hu]. unfold w. apply times_project; [intros l Hl; apply IH; lia|].
    pose proof (times_app HU _ _ Ha (IH ltac:(lia) i (le_n i))) as Y. rewrite Rmult_1_l in Y. exact Y.
Qed.
Lemma arnoldi_defined_times m : arnoldi_defined U a r m -> arnoldi_defined U' a' r' m.
Proof.
  intros D. pose proof (arnoldi_times D) as Y. destruct D as [D0 D]. split.
  - rewrite (times_ip HU Hr Hr). repeat apply Rmult_integral_contrapositive_currified; try lra; exact D0.
  - intros j Hj. assert (W : times U mu (w U a r j) (w U' a' r' j)).
    { unfold w. apply times_project; [intros l Hl; apply (Y j); lia|]. pose proof (times_app HU _ _ Ha (Y j ltac:(lia) j (le_n j))) as Z. rewrite Rmult_1_l in Z. exact Z. }
    rewrite (times_ip HU W W). repeat apply Rmult_integral_contrapositive_currified; try lra. apply D, Hj.
Qed.
Lemma sum_times m (x x' : P -> R) : arnoldi_defined U a r m -> times U 1 x x' ->
  times U 1 (fun u => x u + Rsum (fun j => q U a r j u) (seq 0 m)) (fun u => x' u + Rsum (fun j => q U' a' r' j u) (seq 0 m)).
Proof.
  intros D X u Hu. rewrite (X u Hu), !Rmult_1_l. f_equal. apply Rsum_ext. intros j Hj. apply in_seq in Hj. rewrite (arnoldi_times D (i := j)) by (auto; lia). apply Rmult_1_l.
Qed.
End Arnoldi.
Lemma times_back P (U U' : list P) k f f' : Permutation U U' -> k <> 0%R -> times U k f f' -> times U' (/ k) f' f.
Proof. intros HU Hk F u Hu. rewrite (F u) by (eapply Permutation_in; [apply Permutation_sym; exact HU|exact Hu]). field. exact Hk. Qed.
Lemma arnoldi_defined_iff P (U U' : list P) a a' mu c r r' m : Permutation U U' -> (0 < mu)%R -> (0 < c)%R ->
  (forall u v, In u U -> In v U -> a' u v = mu * a u v)%R -> times U c r r' -> (arnoldi_defined U a r m <-> arnoldi_defined U' a' r' m).
Proof.
  intros HU Hmu Hc Ha Hr. split; [apply arnoldi_defined_times with (mu := mu) (c := c); auto|].
  apply arnoldi_defined_times with (mu := (/ mu)%R) (c := (/ c)%R).
  - apply Permutation_sym, HU.
  - apply Rinv_0_lt_compat, Hmu.
  - apply Rinv_0_lt_compat, Hc.
  - intros u v Hu Hv. rewrite (Ha u v); [field; lra| |]; (eapply Permutation_in; [apply Permutation_sym; exact HU|assumption]).
  - apply times_back with (U := U); [exact HU|lra|exact Hr].
Qed.

(** the code's GMRES iteration on two systems whose equations are proportional *)
Section Iter.
Local Open Scope R_scope.
Variable P : Type.
Variables U U' : list P.
Hypothesis HU : Permutation U U'.
Variables a a' : P -> P -> R.
Variables mu c : R.
Hypothesis Hmu : 0 < mu.
Hypothesis Hc : 0 < c.
Hypothesis Ha : forall u v, In u U -> In v U -> a' u v = mu * a u v.
Variables x0 b x0' b' : P -> R.
Hypothesis Hx0 : times U 1 x0 x0'.
Variable m : nat.
Lemma residual_times x x' : times U mu b b' -> times U 1 x x' -> times U mu (residual U a b x) (residual U' a' b' x').
Proof. intros Hb X u Hu. unfold residual. rewrite (Hb u Hu), (times_app HU _ _ Ha X u Hu). ring. Qed.
Lemma sum_iter_times k : times U mu b b' -> (forall j, (j < k)%nat -> sum_defined U a x0 b m j) -> times U 1 (sum_iter U a x0 b m k) (sum_iter U' a' x0' b' m k).
Proof.
  intros Hb. induction k as [|k IH]; intros Hd; [exact Hx0|]. cbn [sum_iter]. pose proof (IH ltac:(intros j Hj; apply Hd; lia)) as X.
  apply sum_times with (mu := mu) (c := mu); auto.
  - apply residual_times; assumption.
  - apply Hd. lia.
Qed.
Lemma sum_defined_iff k : times U mu b b' -> (forall j, (j < k)%nat -> sum_defined U a x0 b m j) -> (sum_defined U a x0 b m k <-> sum_defined U' a' x0' b' m k).
Proof.
  intros Hb Hd. apply arnoldi_defined_iff with (mu := mu) (c := mu); auto. apply residual_times; [exact Hb|]. apply sum_iter_times; assumption.
Qed.
Lemma residual_zero_times : times U c b b' -> (forall u, In u U -> x0 u = 0) -> times U c (residual U a b x0) (residual U' a' b' x0').
Proof.
  intros Hb Hz u Hu. unfold residual. rewrite (Hb u Hu), (times_app HU _ _ Ha Hx0 u Hu).
  replace (app_op U a x0 u) with 0; [ring|]. symmetry. unfold app_op. rewrite <- (Rsum_zero U). apply Rsum_ext. intros v Hv. rewrite (Hz v Hv). ring.
Qed.
End Iter.

(** ** C101 *)
(** a solver can be constructed for the system with initial guess [x0] and right-hand side [b] *)
Definition system_ready (lg : legion) red (cs : list (setup_call (option R))) st pl0 s x0 b : Prop :=
  legion_ok lg /\ legal_reduction exact red /\ set_up lg cs st pl0 /\ real_entries cs /\ 0 < length (sols_of cs) /\
  vectors_hold lg s (sols_of cs) x0 /\ vectors_hold lg s (rhss_of cs) b.
(** the second system has the same unknowns (in whatever order), and its operator, initial guess and right-hand side are
    [mu], [k] and [c] times those of the first; nothing is said about index spaces, partitions, storage formats, the number
    of matrices that make up the operator, the machine or the reduction tree *)
Definition proportional (us us' : list unknown) (a a' : unknown -> unknown -> R) (x0 x0' b b' : unknown -> R) (mu k c : R) : Prop :=
  Permutation us us' /\ (forall u v, In u us -> In v us -> a' u v = mu * a u v)%R /\
  (forall u, In u us -> x0' u = k * x0 u)%R /\ (forall u, In u us -> b' u = c * b u)%R.
(** every entry of the solution is [k] times the corresponding one *)
Definition solutions_times (lg : legion) (cs cs' : list (setup_call (option R))) (s s' : store loc (option R)) (k : R) : Prop :=
  forall i v v' p, nth_error (sols_of cs) i = Some v -> nth_error (sols_of cs') i = Some v' -> In p (is_points lg (pv_space v)) ->
    exists y, s (at_point v p) = Some y /\ s' (at_point v' p) = Some (k * y)%R.
(** the [j]-th recorded scalars are proportional *)
Definition scalars_times (fs fs' : list nat) (s s' : store loc (option R)) (k : R) : Prop :=
  length fs = length fs' /\ forall j f f', nth_error fs j = Some f -> nth_error fs' j = Some f' -> exists y, s (LFut f) = Some y /\ s' (LFut f') = Some (k * y)%R.

Lemma unknown_at lg (cs : list (setup_call (option R))) i v p : nth_error (sols_of cs) i = Some v -> (In (i, p) (unknowns lg cs) <-> In p (is_points lg (pv_space v))).
Proof.
  intros H. rewrite in_unknowns. unfold space_of. rewrite (nth_error_nth _ _ dummy_vec H). assert (i < length (sols_of cs)) by (apply nth_error_Some; congruence). tauto.
Qed.
Lemma solutions_of lg lg' (cs cs' : list (setup_call (option R))) s s' x x' k : Permutation (unknowns lg cs) (unknowns lg' cs') ->
  vectors_hold lg s (sols_of cs) x -> vectors_hold lg' s' (sols_of cs') x' -> times (unknowns lg cs) k x x' -> solutions_times lg cs cs' s s' k.
Proof.
  intros HU X X' T i v v' p Hv Hv' Hp. exists (x (i, p)). split; [exact (X i v p Hv Hp)|].
  assert (Hu : In (i, p) (unknowns lg cs)) by (apply (@unknown_at lg cs i v p Hv), Hp).
  rewrite <- (T _ Hu). apply (X' i v' p Hv'). apply (@unknown_at lg' cs' i v' p Hv'). eapply Permutation_in; eassumption.
Qed.

Theorem C101_cg : forall lg red cs st pl0 s x0 b lg' red' cs' st' pl0' s' x0' b' mu c n,
  system_ready lg red cs st pl0 s x0 b -> system_ready lg' red' cs' st' pl0' s' x0' b' -> mu <> 0%R -> c <> 0%R ->
  proportional (unknowns lg cs) (unknowns lg' cs') (operator cs) (operator cs') x0 x0' b b' mu (c / mu) c ->
  (forall j, j < n -> cg_defined (unknowns lg cs) (operator cs) x0 b j) ->
  accepted (cg_run exact lg red pl0 n) st /\ accepted (cg_run exact lg' red' pl0' n) st' /\
  forall r st1 s1 r' st1' s1', ends (cg_run exact lg red pl0 n) st s r st1 s1 -> ends (cg_run exact lg' red' pl0' n) st' s' r' st1' s1' ->
    solutions_times lg cs cs' s1 s1' (c / mu) /\ scalars_times (cg_norms r) (cg_norms r') s1 s1' (c * c).
Proof.
  intros lg red cs st pl0 s x0 b lg' red' cs' st' pl0' s' x0' b' mu c n (A1 & A2 & A3 & A4 & A5 & A6 & A7) (B1 & B2 & B3 & B4 & B5 & B6 & B7) Hmu Hc (HU & Ha & Hx & Hb) Hd.
  assert (Hd' : forall j, j < n -> cg_defined (unknowns lg' cs') (operator cs') x0' b' j).
  { intros j Hj. apply (@cg_defined_times _ _ _ HU _ _ mu c Hmu Hc Ha x0 b x0' b' Hx Hb j). intros l Hl. apply Hd. lia. }
  destruct (@C36_cg_is_textbook_cg lg red cs st pl0 s x0 b n A1 A2 A3 A4 A5 A6 A7 Hd) as [P1 Q1].
  destruct (@C36_cg_is_textbook_cg lg' red' cs' st' pl0' s' x0' b' n B1 B2 B3 B4 B5 B6 B7 Hd') as [P2 Q2].
  split; [exact P1|]. split; [exact P2|]. intros r st1 s1 r' st1' s1' E1 E2.
  destruct (Q1 _ _ _ E1) as (X1 & _ & _ & _ & L1 & N1). destruct (Q2 _ _ _ E2) as (X2 & _ & _ & _ & L2 & N2).
  split.
  - eapply solutions_of; [exact HU|exact X1|exact X2|]. exact (proj1 (@cg_times _ _ _ HU _ _ mu c Hmu Hc Ha x0 b x0' b' Hx Hb n Hd)).
  - split; [congruence|]. intros j f f' Hf Hf'. assert (Hj : j < S n) by (rewrite <- L1; apply nth_error_Some; congruence).
    eexists. split; [exact (N1 j f Hf)|]. rewrite (N2 j f' Hf'). f_equal.
    destruct (@cg_times _ _ _ HU _ _ mu c Hmu Hc Ha x0 b x0' b' Hx Hb j) as (_ & R & _); [intros l Hl; apply Hd; lia|]. exact (times_ip HU R R).
Qed.

Theorem C101_bicgstab : forall lg red cs st pl0 s x0 b lg' red' cs' st' pl0' s' x0' b' mu c n,
  system_ready lg red cs st pl0 s x0 b -> system_ready lg' red' cs' st' pl0' s' x0' b' -> mu <> 0%R -> c <> 0%R ->
  proportional (unknowns lg cs) (unknowns lg' cs') (operator cs) (operator cs') x0 x0' b b' mu (c / mu) c ->
  (forall j, j < n -> bicg_defined (unknowns lg cs) (operator cs) x0 b j) ->
  accepted (bicg_run exact lg red pl0 n) st /\ accepted (bicg_run exact lg' red' pl0' n) st' /\
  forall r st1 s1 r' st1' s1', ends (bicg_run exact lg red pl0 n) st s r st1 s1 -> ends (bicg_run exact lg' red' pl0' n) st' s' r' st1' s1' ->
    solutions_times lg cs cs' s1 s1' (c / mu) /\
    (* after the constants the solver starts with *)
    scalars_times (tl (bi_rho r)) (tl (bi_rho r')) s1 s1' (c * c) /\ scalars_times (tl (bi_alpha r)) (tl (bi_alpha r')) s1 s1' (/ mu) /\
    scalars_times (tl (bi_omega r)) (tl (bi_omega r')) s1 s1' (/ mu).
Proof.
  intros lg red cs st pl0 s x0 b lg' red' cs' st' pl0' s' x0' b' mu c n (A1 & A2 & A3 & A4 & A5 & A6 & A7) (B1 & B2 & B3 & B4 & B5 & B6 & B7) Hmu Hc (HU & Ha & Hx & Hb) Hd.
  assert (Hd' : forall j, j < n -> bicg_defined (unknowns lg' cs') (operator cs') x0' b' j).
  { intros j Hj. apply (@bicg_defined_times _ _ _ HU _ _ mu c Hmu Hc Ha x0 b x0' b' Hx Hb j). intros l Hl. apply Hd. lia. }
  destruct (@C40_bicgstab_is_textbook lg red cs st pl0 s x0 b n A1 A2 A3 A4 A5 A6 A7 Hd) as [P1 Q1].
  destruct (@C40_bicgstab_is_textbook lg' red' cs' st' pl0' s' x0' b' n B1 B2 B3 B4 B5 B6 B7 Hd') as [P2 Q2].
  split; [exact P1|]. split; [exact P2|]. intros r st1 s1 r' st1' s1' E1 E2.
  destruct (Q1 _ _ _ E1) as (X1 & _ & _ & _ & _ & _ & L1 & L2 & L3 & N1 & N2 & N3). destruct (Q2 _ _ _ E2) as (X2 & _ & _ & _ & _ & _ & M1 & M2 & M3 & O1 & O2 & O3).
  assert (F : forall j, 0 < j <= n -> full (unknowns lg cs) mu c (bicg_iter (unknowns lg cs) (operator cs) x0 b j) (bicg_iter (unknowns lg' cs') (operator cs') x0' b' j)).
  { intros j Hj. destruct (@bicg_times _ _ _ HU _ _ mu c Hmu Hc Ha x0 b x0' b' Hx Hb j) as (_ & _ & _ & F); [intros l Hl; apply Hd; lia|]. apply F. lia. }
  assert (G : forall (fs fs' : list nat) (g : biter unknown -> R) (k : R), length fs = S n -> length fs' = S n ->
    (forall j f, nth_error fs j = Some f -> s1 (LFut f) = Some (g (bicg_iter (unknowns lg cs) (operator cs) x0 b j))) ->
    (forall j f, nth_error fs' j = Some f -> s1' (LFut f) = Some (g (bicg_iter (unknowns lg' cs') (operator cs') x0' b' j))) ->
    (forall j : nat, 0 < j <= n -> g (bicg_iter (unknowns lg' cs') (operator cs') x0' b' j) = (k * g (bicg_iter (unknowns lg cs) (operator cs) x0 b j))%R) ->
    scalars_times (tl fs) (tl fs') s1 s1' k).
  { intros [|f0 fs] [|f0' fs'] g k K1 K2 H1 H2 H3; try discriminate. cbn [tl]. cbn [length] in K1, K2. split; [congruence|]. intros j f f' Hf Hf'.
    assert (Hjn : j < length fs) by (apply nth_error_Some; congruence). assert (j < n) by lia.
    eexists. split; [exact (H1 (S j) f Hf)|]. rewrite (H2 (S j) f' Hf'), H3 by lia. reflexivity. }
  split.
  - eapply solutions_of; [exact HU|exact X1|exact X2|]. exact (proj1 (@bicg_times _ _ _ HU _ _ mu c Hmu Hc Ha x0 b x0' b' Hx Hb n Hd)).
  - split; [|split].
    + apply G with (g := @b_rho unknown); auto. intros j Hj. destruct (F j Hj) as (_ & _ & _ & _ & E & _ & _). exact E.
    + apply G with (g := @b_alpha unknown); auto. intros j Hj. destruct (F j Hj) as (_ & _ & _ & _ & _ & E & _). rewrite E. unfold Rdiv. ring.
    + apply G with (g := @b_omega unknown); auto. intros j Hj. destruct (F j Hj) as (_ & _ & _ & _ & _ & _ & E). rewrite E. unfold Rdiv. ring.
Qed.

(** GMRES: multiplying the equations by a positive number changes nothing (every entry is the same, or all of them are lost in both runs) ... *)
Definition gmres_same (lg : legion) red cs st pl0 s (lg' : legion) red' cs' st' pl0' s' (restart n : nat) : Prop :=
  accepted (gmres_run exact lg red pl0 restart n) st /\ accepted (gmres_run exact lg' red' pl0' restart n) st' /\
  ((gmres_lost lg red cs st pl0 s restart n /\ gmres_lost lg' red' cs' st' pl0' s' restart n) \/
   forall r st1 s1 r' st1' s1', ends (gmres_run exact lg red pl0 restart n) st s r st1 s1 -> ends (gmres_run exact lg' red' pl0' restart n) st' s' r' st1' s1' ->
     solutions_times lg cs cs' s1 s1' 1).
Theorem C101_gmres : forall lg red cs st pl0 s x0 b lg' red' cs' st' pl0' s' x0' b' mu restart n,
  system_ready lg red cs st pl0 s x0 b -> system_ready lg' red' cs' st' pl0' s' x0' b' -> (0 < mu)%R -> 0 < restart ->
  proportional (unknowns lg cs) (unknowns lg' cs') (operator cs) (operator cs') x0 x0' b b' mu 1 mu ->
  gmres_same lg red cs st pl0 s lg' red' cs' st' pl0' s' restart n.
Proof.
  intros lg red cs st pl0 s x0 b lg' red' cs' st' pl0' s' x0' b' mu restart n HA HB Hmu Hrs (HU & Ha & Hx & Hb).
  split; [eapply run_accepted; exact HA|]. split; [eapply run_accepted; exact HB|].
  destruct (first_break lg cs x0 b restart n) as [Hd|(i & Hi & Hd & Hbr)].
  - right. intros r st1 s1 r' st1' s1' E1 E2.
    assert (Hd' : forall j, j < n -> sum_defined (unknowns lg' cs') (operator cs') x0' b' restart j).
    { intros j Hj. apply (@sum_defined_iff _ _ _ HU _ _ mu Hmu Ha x0 b x0' b' Hx restart j Hb); [intros l Hl; apply Hd; lia|apply Hd; exact Hj]. }
    eapply solutions_of; [exact HU|eapply run_holds; [exact HA|exact Hd|exact E1]|eapply run_holds; [exact HB|exact Hd'|exact E2]|].
    apply sum_iter_times with (mu := mu); auto.
  - left. split; [eapply run_lost; eassumption|]. eapply run_lost; [exact HB|exact Hrs| | |exact Hi].
    + intros j Hj. apply (@sum_defined_iff _ _ _ HU _ _ mu Hmu Ha x0 b x0' b' Hx restart j Hb); [intros l Hl; apply Hd; lia|apply Hd; exact Hj].
    + intros D. apply Hbr. apply (@sum_defined_iff _ _ _ HU _ _ mu Hmu Ha x0 b x0' b' Hx restart i Hb); [exact Hd|exact D].
Qed.
(** ... but the solution does not scale with the right-hand side: from a zero guess the first cycle gives the same vector for every
    positive multiple of it. *)
Theorem C101_gmres_ignores_scale : forall lg red cs st pl0 s x0 b lg' red' cs' st' pl0' s' x0' b' mu c restart,
  system_ready lg red cs st pl0 s x0 b -> system_ready lg' red' cs' st' pl0' s' x0' b' -> (0 < mu)%R -> (0 < c)%R -> 0 < restart ->
  proportional (unknowns lg cs) (unknowns lg' cs') (operator cs) (operator cs') x0 x0' b b' mu 1 c -> (forall u, In u (unknowns lg cs) -> x0 u = 0%R) ->
  gmres_same lg red cs st pl0 s lg' red' cs' st' pl0' s' restart 1.
Proof.
  intros lg red cs st pl0 s x0 b lg' red' cs' st' pl0' s' x0' b' mu c restart HA HB Hmu Hc Hrs (HU & Ha & Hx & Hb) Hz.
  split; [eapply run_accepted; exact HA|]. split; [eapply run_accepted; exact HB|].
  assert (I : sum_defined (unknowns lg cs) (operator cs) x0 b restart 0 <-> sum_defined (unknowns lg' cs') (operator cs') x0' b' restart 0).
  { apply arnoldi_defined_iff with (mu := mu) (c := c); auto. apply residual_zero_times with (mu := mu); auto. }
  destruct (first_break lg cs x0 b restart 1) as [Hd|(i & Hi & Hd & Hbr)].
  - right. intros r st1 s1 r' st1' s1' E1 E2.
    assert (Hd' : forall j, j < 1 -> sum_defined (unknowns lg' cs') (operator cs') x0' b' restart j).
    { intros j Hj. replace j with 0 by lia. apply I, Hd. lia. }
    eapply solutions_of; [exact HU|eapply run_holds; [exact HA|exact Hd|exact E1]|eapply run_holds; [exact HB|exact Hd'|exact E2]|].
    cbn [sum_iter]. apply sum_times with (mu := mu) (c := c); auto; [apply residual_zero_times with (mu := mu); auto|exact (Hd 0 (Nat.lt_0_succ 0))].
  - left. assert (i = 0) by lia. subst i. split; [eapply run_lost; eassumption|]. eapply run_lost with (k := 0); [exact HB|exact Hrs|intros j Hj; lia| |exact Hi].
    intros D. apply Hbr, I, D.
Qed.
