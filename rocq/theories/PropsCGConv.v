(** PropsCGConv: properties C38 and C39 (conjugate gradients: convergence, and stepping after convergence). *)
From Coq Require Import Reals Lra.
From Coq Require Import Floats.SpecFloat.
From Verif Require Import Base Index Outcome Sched Async Arith Launch Vector PartitionSpec VectorFacts LaunchFacts Matrix MatrixSpec MatrixFacts
  MatvecFacts Builder BuilderFacts Exec ExactSum LinAlg CGSpec CGMath Planner PlannerFacts PlannerSetup Solvers PropsVector PropsMatrix PropsPlanner
  PropsSolver SolverFacts PropsCG.
Set Implicit Arguments.

(** ** C38.  Symmetric positive definite operators. *)
(** the squared energy norm of a vector *)
Definition energy_norm2 (us : list unknown) (a : unknown -> unknown -> R) (f : unknown -> R) : R :=
  Rsum (fun u => f u * apply_op us a f u)%R us.
(** A^i b *)
Fixpoint krylov_vector (us : list unknown) (a : unknown -> unknown -> R) (b : unknown -> R) (i : nat) : unknown -> R :=
  match i with 0 => b | S i' => apply_op us a (krylov_vector us a b i') end.
Lemma krylov_vector_eq us a b i : krylov_vector us a b i = krylov us a b i.
Proof. induction i as [|i IH]; [reflexivity|]. cbn [krylov_vector krylov]. rewrite IH. reflexivity. Qed.

Theorem C38_cg_converges : forall lg red (cs : list (setup_call (option R))) st pl0 s x0 b,
  legion_ok lg -> legal_reduction exact red -> set_up lg cs st pl0 -> real_entries cs -> 0 < length (sols_of cs) ->
  vectors_hold lg s (sols_of cs) x0 -> vectors_hold lg s (rhss_of cs) b ->
  let us := unknowns lg cs in
  let a := operator cs in
  symmetric us a -> positive_definite us a ->
  exists (n : nat) (x r p : nat -> unknown -> R), n <= length us /\
    (* the solution, residual and direction vectors after k steps hold x k, r k, p k; no step up to the n-th breaks down *)
    (forall k, k <= n -> accepted (cg_run exact lg red pl0 k) st /\
       forall c st' s', ends (cg_run exact lg red pl0 k) st s c st' s' ->
         vectors_hold lg s' (sols_of cs) (x k) /\ vector_is lg (cg_pl c) s' CG_R (r k) /\ vector_is lg (cg_pl c) s' CG_P (p k) /\
         length (cg_norms c) = S k /\
         forall j f, nth_error (cg_norms c) j = Some f -> s' (LFut f) = Some (Rsum (fun u => r j u * r j u)%R us)) /\
    (* before the n-th step the residual is not zero, after it it is, and x - x0 solves the system *)
    (forall k, k < n -> exists u, In u us /\ r k u <> 0%R) /\
    (forall u, In u us -> r n u = 0%R) /\
    (forall u, In u us -> apply_op us a (fun v => x n v - x0 v)%R u = b u) /\
    (* orthogonality and conjugacy *)
    (forall i j, i < j -> j <= n -> Rsum (fun u => r i u * r j u)%R us = 0%R) /\
    (forall i j, i < j -> j <= n -> Rsum (fun u => p i u * apply_op us a (p j) u)%R us = 0%R) /\
    (* the error with respect to any solution decreases strictly in the energy norm ... *)
    (forall z, (forall u, In u us -> apply_op us a z u = b u) ->
       (forall k, k < n -> (energy_norm2 us a (fun u => z u - (x (S k) u - x0 u)) < energy_norm2 us a (fun u => z u - (x k u - x0 u)))%R) /\
       (* ... and is the least that the Krylov subspace spanned by b, A b, ..., A^(k-1) b allows *)
       (forall k (c : nat -> R), k <= n -> (energy_norm2 us a (fun u => z u - (x k u - x0 u)) <=
          energy_norm2 us a (fun u => z u - Rsum (fun i => c i * krylov_vector us a b i u) (seq 0 k)))%R)).
Proof.
  intros lg red cs st pl0 s x0 b Hlg Hred Hs Hre Hn Hx Hb us a Hsym Hpd.
  assert (Hnd : NoDup us) by (apply (@unknowns_nodup _ lg); assumption).
  destruct (@terminates _ us a x0 b Hsym Hpd unknown_dec Hnd) as [n [H1 [H2 H3]]].
  set (t := cg_iter us a x0 b) in *.
  exists n, (fun k => it_x (t k)), (fun k => it_r (t k)), (fun k => it_p (t k)). split; [exact H1|].
  assert (Hi := inv_all x0 b Hsym Hpd H3).
  assert (Hz : forall u, In u us -> it_r (t n) u = 0%R) by (apply ip_zero; exact H2).
  split; [|split; [|split; [exact Hz|split; [|split; [|split]]]]].
  - intros k Hk. destruct (@C36_cg_is_textbook_cg lg red cs st pl0 s x0 b k Hlg Hred Hs Hre Hn Hx Hb) as [G1 G2].
    { intros j Hj. apply (@defined_while_nonzero _ us a x0 b Hsym Hpd n H3). lia. }
    split; [exact G1|]. intros c st' s' He. destruct (G2 c st' s' He) as [K1 [_ [K2 [K3 [K4 K5]]]]]. auto.
  - intros k Hk. assert (E := H3 k Hk).
    assert (G : (exists u, In u us /\ it_r (t k) u <> 0%R) \/ (forall u, In u us -> it_r (t k) u = 0%R)).
    { generalize us. induction us0 as [|u l IH]; [right; intros ? []|]. destruct (Req_EM_T (it_r (t k) u) 0) as [E0|E0]; [|left; exists u; split; [left; reflexivity|exact E0]].
      destruct IH as [[v [V1 V2]]|IH]; [left; exists v; split; [right; exact V1|exact V2]|]. right. intros v [<-|Hv]; auto. }
    destruct G as [G|G]; [exact G|]. exfalso. apply E. apply vzero_ip. exact G.
  - intros u Hu. assert (E := residual_identity us a x0 b n u). fold t in E. rewrite (Hz u Hu) in E. unfold vsub in E.
    change (apply_op us a) with (app_op us a). lra.
  - intros i j H4 H5. apply (inv_rr Hi); assumption.
  - intros i j H4 H5. apply (inv_pAp Hi); assumption.
  - intros z Hzz.
    assert (EE : forall f g, (forall u, f u = g u) -> energy_norm2 us a f = energy us a g).
    { intros f g E. unfold energy_norm2, energy, ip. apply Rsum_ext. intros u _. rewrite (E u). f_equal. change (apply_op us a) with (app_op us a). apply app_ext. intros v _. apply E. }
    assert (ER : forall k, energy_norm2 us a (fun u => z u - (it_x (t k) u - x0 u))%R = energy us a (err us a x0 b z k)).
    { intros k. apply EE. intros u. unfold err, vsub, vadd. fold t. ring. }
    split.
    + intros k Hk. rewrite !ER. apply (@energy_decreases _ us a x0 b Hsym Hpd z Hzz). intros j Hj. apply H3. lia.
    + intros k c Hk. rewrite ER. assert (Hk3 : forall i, i < k -> ip us (it_r (cg_iter us a x0 b i)) (it_r (cg_iter us a x0 b i)) <> 0%R) by (intros i Hik; apply H3; lia).
      eapply Rle_trans; [exact (@optimal _ us a x0 b Hsym Hpd z Hzz k Hk3 c)|].
      right. symmetry. apply EE. intros u. unfold vsub, vadd.
      assert (EK : Rsum (fun i => c i * krylov_vector us a b i u)%R (seq 0 k) = Rsum (fun i => c i * krylov us a b i u)%R (seq 0 k)) by (apply Rsum_ext; intros i _; rewrite krylov_vector_eq; reflexivity).
      rewrite EK. ring.
Qed.

(** In exact arithmetic, with a zero initial guess, some number of steps not larger than the number of unknowns leaves
    the solution of A x = b in the solution vector (and it is the only solution). *)
Theorem C38_cg_solves : forall lg red (cs : list (setup_call (option R))) st pl0 s b,
  legion_ok lg -> legal_reduction exact red -> set_up lg cs st pl0 -> real_entries cs -> 0 < length (sols_of cs) ->
  vectors_hold lg s (sols_of cs) (fun _ => 0%R) -> vectors_hold lg s (rhss_of cs) b ->
  symmetric (unknowns lg cs) (operator cs) -> positive_definite (unknowns lg cs) (operator cs) ->
  exists (n : nat) (x : unknown -> R), n <= length (unknowns lg cs) /\ accepted (cg_run exact lg red pl0 n) st /\
    (forall c st' s', ends (cg_run exact lg red pl0 n) st s c st' s' -> vectors_hold lg s' (sols_of cs) x) /\
    (forall u, In u (unknowns lg cs) -> apply_op (unknowns lg cs) (operator cs) x u = b u) /\
    (forall y, (forall u, In u (unknowns lg cs) -> apply_op (unknowns lg cs) (operator cs) y u = b u) -> forall u, In u (unknowns lg cs) -> y u = x u).
Proof.
  intros lg red cs st pl0 s b Hlg Hred Hs Hre Hn Hx Hb Hsym Hpd.
  destruct (@C38_cg_converges lg red cs st pl0 s _ b Hlg Hred Hs Hre Hn Hx Hb Hsym Hpd) as [n [x [r [p [H1 [H2 [_ [_ [H3 _]]]]]]]]].
  exists n, (x n). split; [exact H1|]. destruct (H2 n (le_n n)) as [H4 H5]. split; [exact H4|].
  assert (H3' : forall u, In u (unknowns lg cs) -> apply_op (unknowns lg cs) (operator cs) (x n) u = b u).
  { intros u Hu. rewrite <- (H3 u Hu). unfold apply_op. apply Rsum_ext. intros v _. rewrite Rminus_0_r. reflexivity. }
  split; [intros c st' s' He; apply (H5 c st' s' He)|]. split; [exact H3'|].
  intros y Hy u Hu. set (us := unknowns lg cs) in *. set (a := operator cs) in *.
  destruct (Req_EM_T (y u) (x n u)) as [E|E]; [exact E|exfalso].
  assert (Hz : ~ vzero us (vsub y (x n))) by (intros Hz; apply E; specialize (Hz u Hu); unfold vsub in Hz; lra).
  apply Hpd in Hz. rewrite ip_sym in Hz. rewrite vzero_ip in Hz; [lra|].
  intros v Hv. rewrite app_sub. specialize (Hy v Hv). specialize (H3' v Hv). change (apply_op us a) with (app_op us a) in *. lra.
Qed.

(** ** C39.  Stepping after convergence. *)
(** [Z] zeros, [F] ordinary numbers, [N] not-a-numbers, of an arithmetic in which zero divided by zero is not a number
    and a sum with a not-a-number is not a number *)
Record nan_theory {T} (A : arith T) (Z F N : T -> Prop) : Prop := mk_nan_theory {
  nt_zero : Z (a0 A);
  nt_add : forall x y, Z x -> Z y -> Z (aadd A x y);
  nt_mul : forall x y, Z x -> Z y -> Z (amul A x y);
  nt_fmul : forall x y, F x -> Z y -> Z (amul A x y);
  nt_div : forall x y, Z x -> Z y -> N (adiv A x y);
  nt_fma1 : forall x y z, N x -> N (afma A x y z);
  nt_fma3 : forall x y z, N z -> N (afma A x y z) }.
Definition is_zero64 (x : f64) : Prop := match x with S754_zero _ => True | _ => False end.
Definition is_finite64 (x : f64) : Prop := match x with S754_zero _ | S754_finite _ _ _ => True | _ => False end.
Lemma nan_theory_ieee fp fe : nan_theory (ieee fp fe) is_zero64 is_finite64 (fun x => x = S754_nan).
Proof.
  constructor; cbn [ieee a0 aadd amul adiv afma].
  - exact I.
  - intros [[]| | |] [[]| | |]; cbn; tauto.
  - intros [[]| | |] [[]| | |]; cbn; tauto.
  - intros [[]| | |[] ? ?] [[]| | |]; cbn; tauto.
  - intros [[]| | |] [[]| | |]; cbn; tauto.
  - intros x y z ->. destruct y, z; reflexivity.
  - intros x y z ->. assert (E : forall t, SFadd fp fe t S754_nan = S754_nan) by (intros []; reflexivity).
    unfold sf_fma. destruct x, y; apply E.
Qed.
Lemma nan_theory_exact : nan_theory exact (fun x => x = Some 0%R) (fun x => x <> None) (fun x => x = None).
Proof.
  constructor; cbn [exact a0 aadd amul adiv afma].
  - reflexivity.
  - intros x y -> ->. cbn. f_equal. ring.
  - intros x y -> ->. cbn. f_equal. ring.
  - intros [x|] y Hx ->; [|contradiction]. cbn. f_equal. ring.
  - intros x y -> ->. cbn. destruct (Req_EM_T 0 0) as [_|H]; [reflexivity|contradiction].
  - intros x y z ->. reflexivity.
  - intros x y z ->. destruct x, y; reflexivity.
Qed.
(** every component of planner vector [vi] consists of [P] elements *)
Definition vector_all {T} (P : T -> Prop) (lg : legion) (pl : planner T) (s : store loc T) (vi : nat) : Prop :=
  forall i v p, component pl vi i v -> In p (is_points lg (pv_space v)) -> P (s (at_point v p)).
Definition vectors_all {T} (P : T -> Prop) (lg : legion) (s : store loc T) (vs : list pvec) : Prop :=
  forall v p, In v vs -> In p (is_points lg (pv_space v)) -> P (s (at_point v p)).
Definition entries_all {T} (P : T -> Prop) (cs : list (setup_call T)) : Prop :=
  forall m d r, In (m, d, r) (mats_of cs) -> forall kp, In kp (positions m) -> P (value m kp).

Section Nan.
Variable T : Type.
Variable A : arith T.
Variables Z F N : T -> Prop.
Hypothesis HN : nan_theory A Z F N.
Variable lg : legion.
Hypothesis Hlg : legion_ok lg.
Variable red : nat -> list T -> T.
Hypothesis Hred : legal_reduction A red.
Variable cs : list (setup_call T).
Hypothesis Hfin : entries_all F cs.
Hypothesis Hn : 0 < length (sols_of cs).
Notation n := (length (sols_of cs)).
Notation store := (store loc T).

Section Planner.
Variable pl : planner T.
Variable nw : nat.
Hypothesis Hw : working lg cs nw pl.
Lemma all_cell (P : T -> Prop) s vi : vi < 2 + nw -> (vector_all P lg pl s vi <-> forall i p, i < n -> In p (pts lg pl i) -> P (s (cell pl vi i p))).
Proof.
  intros Hv. split.
  - intros H i p Hi Hp. assert (Hc : component pl vi i (vec pl vi i)) by (apply (component_iff Hw); auto).
    apply (H i _ p Hc). rewrite (component_points Hw Hv Hc). exact Hp.
  - intros H i v p Hc Hp. rewrite (component_points Hw Hv Hc) in Hp. apply (component_iff Hw) in Hc; [|exact Hv]. destruct Hc as [Hi ->]. apply (H i p Hi Hp).
Qed.
Lemma updates_all (P : T -> Prop) vi g s s' : vi < 2 + nw -> updates lg pl n vi g s s' -> (forall i p, i < n -> In p (pts lg pl i) -> P (g i p)) -> vector_all P lg pl s' vi.
Proof. intros Hv [U1 _] H. apply all_cell; [exact Hv|]. intros i p Hi Hp. rewrite (U1 i p Hi Hp). apply H; assumption. Qed.
Lemma updates_other (P : T -> Prop) vi vj g s s' : vi < 2 + nw -> vj < 2 + nw -> vj <> vi -> updates lg pl n vi g s s' -> vector_all P lg pl s vj -> vector_all P lg pl s' vj.
Proof.
  intros Hv Hj Hne [_ U2] H. destruct (working_ready Hw) as [R _]. apply all_cell; [exact Hj|]. intros i p Hi Hp.
  rewrite U2 by (apply (other_cell R); auto). apply (proj1 (all_cell P s Hj) H i p Hi Hp).
Qed.
Lemma updates_fut vi g s s' k : updates lg pl n vi g s s' -> s' (LFut k) = s (LFut k).
Proof. intros [_ U2]. apply U2. apply fut_not_in. Qed.
Lemma frame_all (P : T -> Prop) st s s' vi : frame_fut st s s' -> vector_all P lg pl s vi -> vector_all P lg pl s' vi.
Proof. intros H Hf i v p Hc Hp. rewrite H; [apply (Hf i v p Hc Hp)|]. intros m _. split; [discriminate|intros c; discriminate]. Qed.

Lemma reduces_zero l d : reduces_to A l d -> Forall Z l -> Z d.
Proof.
  induction 1 as [|x|l l1 l2 x y Hp H1 IH1 H2 IH2]; intros Hl.
  - apply (nt_zero HN).
  - inversion Hl; assumption.
  - assert (Hl' : Forall Z (l1 ++ l2)) by (apply Forall_forall; intros z Hz; apply (proj1 (Forall_forall _ _) Hl); eapply Permutation_in; [apply Permutation_sym; exact Hp|exact Hz]).
    apply Forall_app in Hl'. destruct Hl'. apply (nt_add HN); auto.
Qed.
Lemma dot_zero s vi vj d : vi < 2 + nw -> vj < 2 + nw -> vector_all Z lg pl s vi -> vector_all Z lg pl s vj -> dot_value A lg red pl n s vi vj d -> Z d.
Proof.
  intros Hv Hj Zi Zj [d0 [ds [-> Hc]]]. destruct (working_ready Hw) as [R _].
  assert (G : forall i e, i < n -> component_value A lg red pl s vi vj i e -> Z e).
  { intros i e Hi [m ->]. eapply reduces_zero; [apply Hred|]. apply Forall_forall. intros e He. apply in_map_iff in He. destruct He as [piece [<- Hpiece]].
    unfold partial_dot. assert (Hp : forall p, In p piece -> In p (pts lg pl i)).
    { intros p Hp. destruct (constructed_pieces Hlg (rd_constructed R Hv Hi)) as [_ Hin]. unfold pts. rewrite <- (proj1 (rd_layout R Hv Hi)). apply Hin.
      apply in_concat. exists piece. auto. }
    clear Hpiece. assert (Hz := nt_zero HN). revert Hz. generalize (a0 A) as acc. induction piece as [|p piece IH]; intros acc Hacc; [exact Hacc|].
    cbn [flat_map app dot_loop]. apply IH; [intros q Hq; apply Hp; right; exact Hq|]. apply (nt_add HN); [exact Hacc|]. apply (nt_mul HN).
    - apply (proj1 (all_cell Z s Hv) Zi i p Hi). apply Hp. left. reflexivity.
    - apply (proj1 (all_cell Z s Hj) Zj i p Hi). apply Hp. left. reflexivity. }
  assert (Hall : Forall Z (d0 :: ds)).
  { assert (Hs : forall i, In i (seq 0 n) -> i < n) by (intros i Hi; apply in_seq in Hi; lia). revert Hc Hs. generalize (seq 0 n) as is. generalize (d0 :: ds) as es.
    intros es is H. induction H as [|i e is es H H' IH]; intros Hs; constructor; [apply (G i e); [apply Hs; left; reflexivity|exact H]|apply IH; intros k Hk; apply Hs; right; exact Hk]. }
  inversion Hall as [|? ? H1 H2]; subst. clear - HN H1 H2. revert d0 H1. induction H2 as [|e ds He H IH]; intros d0 H0; [exact H0|]. cbn [fold_left]. apply IH. apply (nt_add HN); assumption.
Qed.
Lemma matvec_zero s vj i p : vj < 2 + nw -> vector_all Z lg pl s vj -> i < n -> Z (matvec_value A lg pl (fun i p => s (cell pl vj i p)) i p).
Proof.
  intros Hj Zj Hi. destruct (working_ready Hw) as [R [Em _]]. unfold matvec_value. assert (Hz := nt_zero HN). revert Hz. generalize (a0 A) as acc.
  assert (Hmats : forall pm, In pm (pl_mats pl) -> In pm (pl_mats pl)) by auto. revert Hmats. generalize (pl_mats pl) at 1 3 as ms.
  induction ms as [|pm ms IH]; intros Hin acc Hacc; [exact Hacc|]. cbn [fold_left]. apply IH; [intros q Hq; apply Hin; right; exact Hq|].
  destruct (pm_range pm =? i); [|exact Hacc]. assert (Hpm := Hin pm (or_introl eq_refl)). destruct (rd_mats R pm Hpm) as [M1 [M2 [M3 _]]].
  assert (He : In (pm_matrix pm, pm_domain pm, pm_range pm) (mats_of cs)) by (rewrite <- Em; apply in_map_iff; exists pm; auto).
  unfold accumulate_row.
  assert (Hk : forall r c e, In (r, c, e) (row_triples lg (pm_matrix pm) (pts lg pl (pm_domain pm)) p) -> F e /\ In c (pts lg pl (pm_domain pm))).
  { intros r c e Ht. apply filter_In in Ht. destruct Ht as [H1 H2]. apply andb_true_iff in H2. destruct H2 as [_ H2]. split; [|apply mem_spec; exact H2].
    assert (V := Hfin _ _ _ He). destruct (pm_matrix pm) as [m|m]; cbn [triples positions value] in *.
    - apply in_map_iff in H1. destruct H1 as [kp [E H1]]. injection E as _ _ <-. apply V. exact H1.
    - apply in_flat_map in H1. destruct H1 as [kp [H0 H1]]. apply in_map_iff in H1. destruct H1 as [r' [E _]]. injection E as _ _ <-. apply V. exact H0. }
  revert Hk. generalize (row_triples lg (pm_matrix pm) (pts lg pl (pm_domain pm)) p) as ts.
  intros ts. revert acc Hacc. induction ts as [|[[r c] e] ts IHk]; intros acc Hacc Hk; [exact Hacc|]. cbn [fold_left]. apply IHk; [|intros r' c' e' Hkk; apply (Hk r' c' e'); right; exact Hkk].
  destruct (Hk r c e (or_introl eq_refl)) as [K1 K2]. apply (nt_add HN); [exact Hacc|]. apply (nt_fmul HN); [exact K1|]. apply (proj1 (all_cell Z s Hj) Zj _ _ M2 K2).
Qed.
End Planner.

Ltac rng := unfold SOL, RHS, CG_P, CG_Q, CG_R in *; cbn [length]; lia.
(** one step from a state in which the residual, the direction and the residual norm are zero *)
Lemma cg_step_zero c st s : working lg cs 3 (cg_pl c) -> vector_all Z lg (cg_pl c) s CG_P -> vector_all Z lg (cg_pl c) s CG_R ->
  (exists f, last (cg_norms c) 0 = f /\ cg_norms c <> [] /\ f < next_fut st /\ Z (s (LFut f))) ->
  wp (cg_step A lg red c) (fun c' _ s' => working lg cs 3 (cg_pl c') /\ pl_sol (cg_pl c') = pl_sol (cg_pl c) /\ cg_norms c' <> [] /\ vector_all N lg (cg_pl c') s' SOL) st s.
Proof.
  intros Hw ZP ZR [fo [Ef [Hne [Lf Zf]]]]. destruct (working_ready Hw) as [R _]. unfold cg_step. set (pl := cg_pl c) in *.
  apply wp_bind. apply (wp_matvec Hlg R); [rng|rng|rng|]. intros s1 U1.
  assert (ZQ1 : vector_all Z lg pl s1 CG_Q) by (eapply (@updates_all pl 3 Hw Z CG_Q _ s s1); [rng|exact U1|]; intros i p Hi Hp; apply (@matvec_zero pl 3 Hw); [rng|exact ZP|exact Hi]).
  assert (ZP1 : vector_all Z lg pl s1 CG_P) by (eapply (@updates_other pl 3 Hw Z CG_Q CG_P _ s s1); [rng|rng|rng|exact U1|exact ZP]).
  apply wp_bind. apply (wp_dot R); [exact Hn|rng|rng|]. intros fp st2 s2 A1 A2 _ F2 D2.
  assert (Zp : Z (s2 (LFut fp))) by (apply (@dot_zero pl 3 Hw s1 CG_P CG_Q); [rng|rng|exact ZP1|exact ZQ1|exact D2]).
  apply wp_bind. unfold back. destruct (rev (cg_norms c)) as [|x rest] eqn:Er; [apply (f_equal (@rev nat)) in Er; rewrite rev_involutive in Er; contradiction|].
  assert (x = fo). { apply (f_equal (@rev nat)) in Er. rewrite rev_involutive in Er. cbn [rev] in Er. rewrite Er, last_last in Ef. exact Ef. } subst x.
  eapply wp_lift; [reflexivity|].
  assert (Zo : Z (s2 (LFut fo))) by (rewrite (frame_fut_old F2) by lia; rewrite (@updates_fut pl _ _ _ _ fo U1); exact Zf).
  apply wp_bind. apply (wp_axpy A Hlg R); [rng|rng|rng|rng|]. intros s3 U3.
  assert (NS : vector_all N lg pl s3 SOL).
  { eapply (@updates_all pl 3 Hw N SOL _ s2 s3); [rng|exact U3|]. intros i p Hi Hp. apply (nt_fma1 HN). apply (nt_div HN); [exact Zo|exact Zp]. }
  apply wp_bind. apply (wp_axpy A Hlg R); [rng|rng|rng|rng|]. intros s4 U4.
  assert (NS4 : vector_all N lg pl s4 SOL) by (eapply (@updates_other pl 3 Hw N CG_R SOL _ s3 s4); [rng|rng|rng|exact U4|exact NS]).
  apply wp_bind. apply (wp_dot R); [exact Hn|rng|rng|]. intros fn st5 s5 _ _ _ F5 _.
  assert (NS5 := frame_all F5 NS4).
  apply wp_bind. apply (wp_xpay A Hlg R); [rng|rng|rng|rng|]. intros s6 U6. apply wp_ret. cbn [cg_pl cg_norms].
  split; [exact Hw|]. split; [reflexivity|]. split; [intros E; apply app_eq_nil in E; destruct E; discriminate|].
  eapply (@updates_other pl 3 Hw N CG_P SOL _ s5 s6); [rng|rng|rng|exact U6|exact NS5].
Qed.
(** a not-a-number in the solution stays *)
Lemma cg_step_nan c st s : working lg cs 3 (cg_pl c) -> cg_norms c <> [] -> vector_all N lg (cg_pl c) s SOL ->
  wp (cg_step A lg red c) (fun c' _ s' => working lg cs 3 (cg_pl c') /\ pl_sol (cg_pl c') = pl_sol (cg_pl c) /\ cg_norms c' <> [] /\ vector_all N lg (cg_pl c') s' SOL) st s.
Proof.
  intros Hw Hne NS. destruct (working_ready Hw) as [R _]. unfold cg_step. set (pl := cg_pl c) in *.
  apply wp_bind. apply (wp_matvec Hlg R); [rng|rng|rng|]. intros s1 U1.
  assert (NS1 : vector_all N lg pl s1 SOL) by (eapply (@updates_other pl 3 Hw N CG_Q SOL _ s s1); [rng|rng|rng|exact U1|exact NS]).
  apply wp_bind. apply (wp_dot R); [exact Hn|rng|rng|]. intros fp st2 s2 A1 A2 _ F2 D2. assert (NS2 := frame_all F2 NS1).
  apply wp_bind. apply wp_back_any; [exact Hne|]. intros fo.
  apply wp_bind. apply (wp_axpy A Hlg R); [rng|rng|rng|rng|]. intros s3 U3.
  assert (NS3 : vector_all N lg pl s3 SOL).
  { eapply (@updates_all pl 3 Hw N SOL _ s2 s3); [rng|exact U3|]. intros i p Hi Hp. apply (nt_fma3 HN). apply (proj1 (@all_cell pl 3 Hw N s2 SOL ltac:(rng)) NS2 i p Hi Hp). }
  apply wp_bind. apply (wp_axpy A Hlg R); [rng|rng|rng|rng|]. intros s4 U4.
  assert (NS4 : vector_all N lg pl s4 SOL) by (eapply (@updates_other pl 3 Hw N CG_R SOL _ s3 s4); [rng|rng|rng|exact U4|exact NS3]).
  apply wp_bind. apply (wp_dot R); [exact Hn|rng|rng|]. intros fn st5 s5 _ _ _ F5 _.
  assert (NS5 := frame_all F5 NS4).
  apply wp_bind. apply (wp_xpay A Hlg R); [rng|rng|rng|rng|]. intros s6 U6. apply wp_ret. cbn [cg_pl cg_norms].
  split; [exact Hw|]. split; [reflexivity|]. split; [intros E; apply app_eq_nil in E; destruct E; discriminate|].
  eapply (@updates_other pl 3 Hw N CG_P SOL _ s5 s6); [rng|rng|rng|exact U6|exact NS5].
Qed.
Lemma cg_new_zero st pl0 s : set_up lg cs st pl0 -> vectors_all Z lg s (rhss_of cs) ->
  wp (cg_new A lg red pl0) (fun c st' s' => working lg cs 3 (cg_pl c) /\ vector_all Z lg (cg_pl c) s' CG_P /\ vector_all Z lg (cg_pl c) s' CG_R /\
     exists f, last (cg_norms c) 0 = f /\ cg_norms c <> [] /\ f < next_fut st' /\ Z (s' (LFut f))) st s.
Proof.
  intros Hs Hb. unfold cg_new, scalar_const. apply wp_bind. apply wp_scalar_task. intros s1 _ F1.
  apply wp_bind. apply (@wp_allocate _ lg cs (next st) pl0 3 _ s1); [apply (@set_up_next _ lg cs st); [cbn; lia|exact Hs]|].
  intros pl st1 Hw C3 C4 N1. destruct (working_ready Hw) as [R _].
  assert (B1 : vector_all Z lg pl s1 RHS).
  { intros i v p Hc Hp. rewrite F1 by discriminate. apply (Hb v p); [|exact Hp]. unfold component, get_vector, vector_row, RHS in Hc. cbn [obind] in Hc. rewrite C4 in Hc.
    destruct (nth_error (rhss_of cs) i) eqn:E; [|discriminate]. injection Hc as ->. eapply nth_error_In; exact E. }
  apply wp_bind. apply (wp_copy A Hlg R); [rng|rng|rng|]. intros s2 U2.
  assert (P2 : vector_all Z lg pl s2 CG_P) by (eapply (@updates_all pl 3 Hw Z CG_P _ s1 s2); [rng|exact U2|]; intros i p Hi Hp; apply (proj1 (@all_cell pl 3 Hw Z s1 RHS ltac:(rng)) B1 i p Hi Hp)).
  assert (B2 : vector_all Z lg pl s2 RHS) by (eapply (@updates_other pl 3 Hw Z CG_P RHS _ s1 s2); [rng|rng|rng|exact U2|exact B1]).
  apply wp_bind. apply (wp_copy A Hlg R); [rng|rng|rng|]. intros s3 U3.
  assert (P3 : vector_all Z lg pl s3 CG_P) by (eapply (@updates_other pl 3 Hw Z CG_R CG_P _ s2 s3); [rng|rng|rng|exact U3|exact P2]).
  assert (R3 : vector_all Z lg pl s3 CG_R) by (eapply (@updates_all pl 3 Hw Z CG_R _ s2 s3); [rng|exact U3|]; intros i p Hi Hp; apply (proj1 (@all_cell pl 3 Hw Z s2 RHS ltac:(rng)) B2 i p Hi Hp)).
  apply wp_bind. apply (wp_dot R); [exact Hn|rng|rng|]. intros f st4 s4 A1 A2 _ F4 D4. apply wp_ret. cbn [cg_pl cg_norms].
  split; [exact Hw|]. split; [exact (frame_all F4 P3)|]. split; [exact (frame_all F4 R3)|]. exists f. split; [reflexivity|]. split; [discriminate|]. split; [exact A2|].
  apply (@dot_zero pl 3 Hw s3 CG_R CG_R); [rng|rng|exact R3|exact R3|exact D4].
Qed.
Lemma cg_zero_rhs st pl0 s k : set_up lg cs st pl0 -> vectors_all Z lg s (rhss_of cs) ->
  wp (cg_run A lg red pl0 (S k)) (fun c _ s' => working lg cs 3 (cg_pl c) /\ cg_norms c <> [] /\ vector_all N lg (cg_pl c) s' SOL) st s.
Proof.
  intros Hs Hb. unfold cg_run. apply wp_bind. eapply wp_conseq; [apply (cg_new_zero Hs Hb)|]. intros c st1 s1 [Hw [ZP [ZR Hf]]].
  induction k as [|k IH]; cbn [cg_steps] in *.
  - apply wp_bind. apply wp_ret. eapply wp_conseq; [apply cg_step_zero; assumption|]. intros c' st' s' [H1 [_ [H2 H3]]]. auto.
  - apply wp_bind. eapply wp_conseq; [exact IH|]. intros c2 st2 s2 [W2 [E2 N2]]. eapply wp_conseq; [apply cg_step_nan; assumption|]. intros c' st' s' [H1 [_ [H2 H3]]]. auto.
Qed.
Lemma all_sol (P : T -> Prop) pl s : working lg cs 3 pl -> vector_all P lg pl s SOL -> vectors_all P lg s (sols_of cs).
Proof.
  intros Hw H v p Hv Hp. destruct (working_ready Hw) as [_ [_ [C3 _]]]. apply In_nth_error in Hv. destruct Hv as [i Hi]. apply (H i v p); [|exact Hp].
  unfold component, get_vector, vector_row, SOL. cbn [obind]. rewrite C3, Hi. reflexivity.
Qed.
End Nan.

(** ** C39 (IEEE arithmetic: float, double).  A zero right-hand side: the system is solved before the first step, whatever the
    matrices and (since the guess is ignored) the initial solution; every further step makes every entry of the solution NaN. *)
Theorem C39_zero_rhs_gives_nan : forall (fp fe : Z) lg red (cs : list (setup_call f64)) st pl0 s k,
  legion_ok lg -> legal_reduction (ieee fp fe) red -> set_up lg cs st pl0 -> 0 < length (sols_of cs) -> 0 < k ->
  entries_all is_finite64 cs -> vectors_all is_zero64 lg s (rhss_of cs) ->
  accepted (cg_run (ieee fp fe) lg red pl0 k) st /\
  forall c st' s', ends (cg_run (ieee fp fe) lg red pl0 k) st s c st' s' -> vectors_all (fun x => x = S754_nan) lg s' (sols_of cs).
Proof.
  intros fp fe lg red cs st pl0 s k Hlg Hred Hs Hn Hk Hfin Hb. destruct k as [|k]; [lia|].
  assert (W := @cg_zero_rhs f64 (ieee fp fe) _ _ _ (nan_theory_ieee fp fe) lg Hlg red Hred cs Hfin Hn st pl0 s k Hs Hb).
  split; [eapply wp_accepted; exact W|]. intros c st' s' He. destruct (wp_ends W He) as [s1 [[Hw [_ H]] E]].
  intros v p Hv Hp. rewrite E. apply (@all_sol f64 lg cs (fun x => x = S754_nan) _ _ Hw H v p Hv Hp).
Qed.

(** ** C39 (exact arithmetic).  If the residual is exactly zero after k steps, then after any further steps every entry of
    the solution is undefined (the step length is 0/0). *)
Theorem C39_step_after_convergence : forall lg red (cs : list (setup_call (option R))) st pl0 s x0 b k j,
  legion_ok lg -> legal_reduction exact red -> set_up lg cs st pl0 -> real_entries cs -> 0 < length (sols_of cs) ->
  vectors_hold lg s (sols_of cs) x0 -> vectors_hold lg s (rhss_of cs) b ->
  (forall i, i < k -> cg_defined (unknowns lg cs) (operator cs) x0 b i) ->
  (forall u, In u (unknowns lg cs) -> it_r (cg_iter (unknowns lg cs) (operator cs) x0 b k) u = 0%R) -> k < j ->
  accepted (cg_run exact lg red pl0 j) st /\
  forall c st' s', ends (cg_run exact lg red pl0 j) st s c st' s' -> vectors_all (fun x => x = None) lg s' (sols_of cs).
Proof.
  intros lg red cs st pl0 s x0 b k j Hlg Hred Hs Hre Hn Hx Hb Hd Hz Hj.
  assert (Hfin : entries_all (fun x => x <> None) cs) by exact Hre.
  set (us := unknowns lg cs) in *. set (a := operator cs) in *.
  assert (Hp : forall u, In u us -> it_p (cg_iter us a x0 b k) u = 0%R).
  { intros u Hu. destruct k as [|k]; [exact (Hz u Hu)|]. cbn [cg_iter] in Hz |- *. unfold cg_next in *. cbn [it_r it_p it_x] in *. rewrite (Hz u Hu).
    rewrite (@vzero_ip _ us (fun u => _) _); [|exact Hz]. unfold Rdiv. ring. }
  assert (W : wp (cg_run exact lg red pl0 j) (fun c _ s' => working lg cs 3 (cg_pl c) /\ cg_norms c <> [] /\ vector_all (fun x => x = None) lg (cg_pl c) s' SOL) st s).
  { unfold cg_run. apply wp_bind. eapply wp_conseq; [apply (@cg_new_inv lg Hlg red Hred cs Hn x0 b); eassumption|]. intros c st1 s1 H0.
    replace j with (S (j - S k) + k) by lia. generalize (j - S k) as m. induction m as [|m IH]; cbn [Nat.add cg_steps].
    - apply wp_bind. eapply wp_conseq; [apply (@cg_steps_inv lg Hlg red Hred cs Hre Hn x0 b c st1 s1 H0 k Hd)|].
      intros c2 st2 s2 [Hw C3 C4 HX HB HR HP _ HL HNn]. cbn [cg_pl] in *.
      eapply wp_conseq; [apply (@cg_step_zero _ exact _ _ _ nan_theory_exact lg Hlg red Hred cs Hfin Hn c2 st2 s2 Hw)|intros c' st' s' [H1 [_ [H2 H3]]]; auto].
      + apply (@all_cell _ lg cs _ 3 Hw); [unfold CG_P; lia|]. intros i p Hi Hpp. rewrite (proj1 (@vector_is_cell lg cs 3 _ Hw s2 CG_P _ ltac:(unfold CG_P; lia)) HP i p Hi Hpp).
        f_equal. apply Hp. apply in_unknowns. split; [exact Hi|]. unfold space_of. rewrite <- (pts_space Hw Hi). exact Hpp.
      + apply (@all_cell _ lg cs _ 3 Hw); [unfold CG_R; lia|]. intros i p Hi Hpp. rewrite (proj1 (@vector_is_cell lg cs 3 _ Hw s2 CG_R _ ltac:(unfold CG_R; lia)) HR i p Hi Hpp).
        f_equal. apply Hz. apply in_unknowns. split; [exact Hi|]. unfold space_of. rewrite <- (pts_space Hw Hi). exact Hpp.
      + destruct (nth_error (cg_norms c2) k) as [fo|] eqn:En; [|apply nth_error_None in En; lia]. exists fo. destruct (HNn k fo En) as [L V]. split; [|split; [|split; [exact L|]]].
        * assert (Er := back_snoc (cg_norms c2) HL En). apply (f_equal (@rev nat)) in Er. rewrite rev_involutive in Er. cbn [rev] in Er. rewrite Er. apply last_last.
        * intros E0. rewrite E0 in HL. discriminate.
        * rewrite V. f_equal. apply vzero_ip. exact Hz.
    - apply wp_bind. eapply wp_conseq; [exact IH|]. intros c2 st2 s2 [W2 [E2 N2]].
      eapply wp_conseq; [apply (@cg_step_nan _ exact _ _ _ nan_theory_exact lg Hlg red cs Hn); assumption|]. intros c' st' s' [H1 [_ [H2 H3]]]; auto. }
  split; [eapply wp_accepted; exact W|]. intros c st' s' He. destruct (wp_ends W He) as [s1 [[Hw [_ H]] E]].
  intros v p Hv Hpp. rewrite E. apply (@all_sol _ lg cs (fun x => x = None) _ _ Hw H v p Hv Hpp).
Qed.
