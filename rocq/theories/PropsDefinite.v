(** PropsDefinite: C99, for which systems the conjugate gradient solver works. *)
From Coq Require Import Reals Lra.
From Coq Require Import Floats.SpecFloat.
From Verif Require Import Base Index Outcome Sched Async Arith Launch Vector PartitionSpec VectorFacts LaunchFacts Matrix MatrixSpec MatrixFacts
  MatvecFacts Builder BuilderFacts Exec ExactSum LinAlg CGSpec CGMath Planner PlannerFacts PlannerSetup Solvers PropsVector PropsMatrix PropsPlanner
  PropsSolver SolverFacts PropsCG PropsCGConv SolverExample.
Set Implicit Arguments.

(** ** Specification *)
(** the value <x, A x> of the quadratic form of the system *)
Definition form (us : list unknown) (a : unknown -> unknown -> R) (x : unknown -> R) : R := Rsum (fun u => x u * apply_op us a x u)%R us.
Definition nonzero (us : list unknown) (x : unknown -> R) : Prop := exists u, In u us /\ x u <> 0%R.
(** the form is positive on all non-zero vectors, or negative on all *)
Definition definite (us : list unknown) (a : unknown -> unknown -> R) : Prop :=
  (forall x, nonzero us x -> (0 < form us a x)%R) \/ (forall x, nonzero us x -> (form us a x < 0)%R).
(** the form takes a value that is not positive and one that is not negative on non-zero vectors *)
Definition indefinite (us : list unknown) (a : unknown -> unknown -> R) : Prop :=
  exists y z, nonzero us y /\ nonzero us z /\ (form us a y <= 0)%R /\ (0 <= form us a z)%R.

(** ** The mathematics *)
Section Math.
Variable U : list unknown.
Variable a : unknown -> unknown -> R.
Lemma nonzero_vzero x : nonzero U x -> ~ vzero U x.
Proof. intros [u [Hu N]] Z. apply N, Z, Hu. Qed.
Lemma not_vzero x : ip U x x <> 0%R -> nonzero U x.
Proof.
  intros H. assert (G : forall l, (forall u, In u l -> x u = 0%R) \/ exists u, In u l /\ x u <> 0%R).
  { induction l as [|u l [IH|(w & Hw & N)]]; [left; intros u []| |right; exists w; split; [right; exact Hw|exact N]].
    destruct (Req_EM_T (x u) 0) as [E|E]; [left; intros w [<-|Hw]; auto|right; exists u; split; [left; reflexivity|exact E]]. }
  destruct (G U) as [Z|N]; [|exact N]. exfalso. apply H. apply vzero_ip. exact Z.
Qed.
Notation neg := (fun u v => - a u v)%R.
Lemma app_neg x u : app_op U neg x u = (- app_op U a x u)%R.
Proof. unfold app_op. replace (- Rsum (fun v => (a u v * x v)%R) U)%R with ((-1) * Rsum (fun v => (a u v * x v)%R) U)%R by ring. rewrite <- Rsum_scal. apply Rsum_ext. intros; ring. Qed.
Lemma ip_neg f x : ip U f (app_op U neg x) = (- ip U f (app_op U a x))%R.
Proof. unfold ip. replace (- Rsum (fun u => (f u * app_op U a x u)%R) U)%R with ((-1) * Rsum (fun u => (f u * app_op U a x u)%R) U)%R by ring. rewrite <- Rsum_scal. apply Rsum_ext. intros u _. rewrite app_neg. ring. Qed.
(** the iteration for -A: same residuals and directions, opposite solution *)
Lemma mirror x0 b k : forall u,
  it_r (cg_iter U a x0 b k) u = it_r (cg_iter U neg (fun _ => 0%R) b k) u /\ it_p (cg_iter U a x0 b k) u = it_p (cg_iter U neg (fun _ => 0%R) b k) u.
Proof.
  induction k as [|k IH]; [intros u; split; reflexivity|]. cbn [cg_iter]. set (t := cg_iter U a x0 b k) in *. set (t' := cg_iter U neg (fun _ => 0%R) b k) in *.
  assert (E1 : ip U (it_r t) (it_r t) = ip U (it_r t') (it_r t')) by (apply ip_ext; intros u _; apply IH).
  assert (A1 : forall u, app_op U neg (it_p t') u = (- app_op U a (it_p t) u)%R).
  { intros u. rewrite app_neg. f_equal. symmetry. apply app_ext. intros v _. apply IH. }
  assert (E2 : ip U (it_p t') (app_op U neg (it_p t')) = (- ip U (it_p t) (app_op U a (it_p t)))%R).
  { rewrite ip_neg. f_equal. symmetry. apply ip_ext; [intros u _; apply IH|]. intros u _. apply app_ext. intros v _. apply IH. }
  assert (Er : forall u, it_r (cg_next U a t) u = it_r (cg_next U neg t') u).
  { intros u. unfold cg_next. cbn [it_r]. rewrite A1, E2, <- E1, (proj1 (IH u)). unfold Rdiv. rewrite Rinv_opp. ring. }
  intros u. split; [apply Er|]. assert (E3 : ip U (it_r (cg_next U a t)) (it_r (cg_next U a t)) = ip U (it_r (cg_next U neg t')) (it_r (cg_next U neg t'))).
  { apply ip_ext; intros w _; apply Er. }
  change (it_p (cg_next U a t) u) with (it_r (cg_next U a t) u + ip U (it_r (cg_next U a t)) (it_r (cg_next U a t)) / ip U (it_r t) (it_r t) * it_p t u)%R.
  change (it_p (cg_next U neg t') u) with (it_r (cg_next U neg t') u + ip U (it_r (cg_next U neg t')) (it_r (cg_next U neg t')) / ip U (it_r t') (it_r t') * it_p t' u)%R.
  rewrite Er, E3, E1, (proj2 (IH u)). reflexivity.
Qed.
Hypothesis Hnd : NoDup U.
Hypothesis Hsym : symmetric U a.
Lemma definite_terminates x0 b : definite U a -> exists k, k <= length U /\ (forall j, j < k -> cg_defined U a x0 b j) /\ vzero U (it_r (cg_iter U a x0 b k)).
Proof.
  assert (D : forall u v : unknown, {u = v} + {u <> v}) by (intros [i p] [j q]; destruct (Nat.eq_dec i j), (point_eq_dec p q); subst; auto; right; congruence).
  intros [H|H].
  - assert (Hpd : positive_definite U a) by (intros x Hx; apply H; apply not_vzero; intros E; apply Hx, ip_zero, E).
    destruct (terminates x0 b Hsym Hpd D Hnd) as (k & K1 & K2 & K3). exists k. split; [exact K1|]. split; [|apply ip_zero, K2].
    exact (@defined_while_nonzero _ U a x0 b Hsym Hpd k K3).
  - assert (Hpd : positive_definite U neg).
    { intros x Hx. rewrite ip_neg. assert (form U a x < 0)%R by (apply H; apply not_vzero; intros E; apply Hx, ip_zero, E). unfold form in *. unfold ip. change (apply_op U a) with (app_op U a) in *. lra. }
    assert (Hs : symmetric U neg) by (intros u v Hu Hv; rewrite (Hsym u v Hu Hv); reflexivity).
    destruct (terminates (fun _ => 0%R) b Hs Hpd D Hnd) as (k & K1 & K2 & K3). exists k. split; [exact K1|].
    assert (R : forall j, ip U (it_r (cg_iter U a x0 b j)) (it_r (cg_iter U a x0 b j)) = ip U (it_r (cg_iter U neg (fun _ => 0%R) b j)) (it_r (cg_iter U neg (fun _ => 0%R) b j))).
    { intros j. apply ip_ext; intros u _; apply mirror. }
    split; [|apply ip_zero; rewrite R; exact K2]. intros j Hj. destruct (@defined_while_nonzero _ U neg (fun _ => 0%R) b Hs Hpd k K3 j Hj) as [D1 D2]. split; [|rewrite R; exact D2].
    intros E. apply D1. rewrite ip_neg.
    assert (Q : ip U (it_p (cg_iter U a x0 b j)) (app_op U a (it_p (cg_iter U a x0 b j))) = ip U (it_p (cg_iter U neg (fun _ => 0%R) b j)) (app_op U a (it_p (cg_iter U neg (fun _ => 0%R) b j)))).
    { apply ip_ext; [intros u _; apply mirror|]. intros u _. apply app_ext. intros v _. apply mirror. }
    rewrite <- Q, E. ring.
Qed.
End Math.

(** a vector on which an indefinite form vanishes (the matrix need not be symmetric) *)
Lemma isotropic U a : indefinite U a -> exists x, nonzero U x /\ form U a x = 0%R.
Proof.
  intros (y & z & Ny & Nz & Fy & Fz). destruct (Req_EM_T (form U a y) 0) as [E|E]; [exists y; auto|]. destruct (Req_EM_T (form U a z) 0) as [E'|E']; [exists z; auto|].
  set (A := form U a z) in *. set (C := form U a y) in *. set (B := (Rsum (fun u => y u * app_op U a z u) U + Rsum (fun u => z u * app_op U a y u) U)%R).
  assert (Q : forall t, form U a (fun u => y u + t * z u)%R = (C + B * t + A * (t * t))%R).
  { intros t. unfold form, B, A, C, form. change (apply_op U a) with (app_op U a).
    assert (L : forall u, app_op U a (fun v => y v + t * z v)%R u = (app_op U a y u + t * app_op U a z u)%R).
    { intros u. rewrite <- app_scal, <- app_add. apply app_ext. intros v _. reflexivity. }
    rewrite (Rsum_ext (fun u => (y u + t * z u) * app_op U a (fun v => y v + t * z v) u)%R (fun u => ((y u * app_op U a y u + t * (y u * app_op U a z u)) + (t * (z u * app_op U a y u) + (t * t) * (z u * app_op U a z u)))%R)).
    2:{ intros u _. rewrite L. ring. }
    rewrite !Rsum_plus, !Rsum_scal. ring. }
  assert (HA : (0 < A)%R) by lra. assert (HC : (C < 0)%R) by lra.
  set (D := (B * B - 4 * A * C)%R). assert (HD : (0 < D)%R) by (unfold D; nra).
  set (t := ((- B + sqrt D) / (2 * A))%R). assert (T : (A * (t * t) + B * t + C = 0)%R).
  { unfold t. assert (S := sqrt_sqrt D (Rlt_le _ _ HD)). set (q := sqrt D) in *. assert (E1 : (A * ((- B + q) / (2 * A) * ((- B + q) / (2 * A))) + B * ((- B + q) / (2 * A)) + C = (q * q - (B * B - 4 * A * C)) / (4 * A))%R) by (field; lra).
    rewrite E1, S. unfold D. field. lra. }
  exists (fun u => y u + t * z u)%R. split; [|rewrite Q; lra].
  apply not_vzero. intros Z. apply ip_zero in Z. assert (Ey : forall u, In u U -> y u = (- t * z u)%R) by (intros u Hu; specialize (Z u Hu); cbn beta in Z; lra).
  assert (C = t * t * A)%R; [|nra]. unfold C, A, form. rewrite <- Rsum_scal. apply Rsum_ext. intros u Hu. rewrite (Ey u Hu) at 1.
  change (apply_op U a) with (app_op U a). assert (E2 : app_op U a y u = app_op U a (vscal (- t) z) u) by (apply app_ext; exact Ey). rewrite E2, app_scal. ring.
Qed.

(** ** The solver *)
Section Step.
Variable lg : legion.
Hypothesis Hlg : legion_ok lg.
Variable red : nat -> list (option R) -> option R.
Hypothesis Hred : legal_reduction exact red.
Variable cs : list (setup_call (option R)).
Hypothesis Hre : real_entries cs.
Hypothesis Hn : 0 < length (sols_of cs).
Variables x0 b : unknown -> R.
Notation U := (unknowns lg cs).
Notation a := (operator cs).
Notation t k := (cg_iter U a x0 b k).
Notation store := (store loc (option R)).
Notation undefined := (fun x : option R => x = None).
Ltac rng := unfold SOL, RHS, CG_P, CG_Q, CG_R in *; cbn [length]; lia.
(** dividing by zero undefines the solution *)
Lemma cg_step_breaks k c st s : cg_inv lg cs x0 b k c st s -> ip U (it_p (t k)) (app_op U a (it_p (t k))) = 0%R ->
  wp (cg_step exact lg red c) (fun c' _ s' => working lg cs 3 (cg_pl c') /\ pl_sol (cg_pl c') = pl_sol (cg_pl c) /\ cg_norms c' <> [] /\ vector_all undefined lg (cg_pl c') s' SOL) st s.
Proof.
  intros [Hw C3 C4 HX HB HR HP [E1 L1] HL HN] D1. unfold cg_step. set (pl := cg_pl c) in *. destruct (working_ready Hw) as [R _].
  apply wp_bind. apply (@wpx_matvec lg Hlg cs Hre 3 pl Hw CG_Q CG_P (it_p (t k))); [rng|rng|discriminate|exact HP|]. intros s1 Q1 [K1 F1].
  assert (P1 : vector_is lg pl s1 CG_P (it_p (t k))) by (apply K1; [rng|discriminate|exact HP]).
  apply wp_bind. apply (@wpx_dot lg Hlg red Hred cs 3 pl Hw CG_P CG_Q (it_p (t k)) (app_op U a (it_p (t k)))); [exact Hn|rng|rng|exact P1|exact Q1|].
  intros fp st2 s2 A1 A2 _ V2 [K2 F2].
  destruct (nth_error (cg_norms c) k) as [fo|] eqn:En; [|apply nth_error_None in En; lia].
  destruct (HN k fo En) as [No Vo].
  apply wp_bind. apply (@wp_back _ (cg_norms c) k fo _ _ _ HL En).
  assert (Al : alpha_of exact s2 [fo; fp] = None).
  { unfold alpha_of. cbn. unfold fut. rewrite V2, D1, F2, F1 by exact No. rewrite Vo. cbn. destruct (Req_EM_T 0 0) as [_|N]; [reflexivity|contradiction]. }
  apply wp_bind. apply (wp_axpy exact Hlg R); [rng|rng|rng|rng|]. intros s3 U3.
  assert (NS3 : vector_all undefined lg pl s3 SOL).
  { eapply (@updates_all _ lg cs pl 3 Hw undefined SOL _ s2 s3); [rng|exact U3|]. intros i p Hi Hp. rewrite Al. reflexivity. }
  apply wp_bind. apply (wp_axpy exact Hlg R); [rng|rng|rng|rng|]. intros s4 U4.
  assert (NS4 : vector_all undefined lg pl s4 SOL) by (eapply (@updates_other _ lg cs pl 3 Hw undefined CG_R SOL _ s3 s4); [rng|rng|rng|exact U4|exact NS3]).
  apply wp_bind. apply (wp_dot R); [exact Hn|rng|rng|]. intros fn st5 s5 _ _ _ F5 _.
  assert (NS5 := frame_all F5 NS4).
  apply wp_bind. apply (wp_xpay exact Hlg R); [rng|rng|rng|rng|]. intros s6 U6. apply wp_ret. cbn [cg_pl cg_norms].
  split; [exact Hw|]. split; [reflexivity|]. split; [intros E; apply app_eq_nil in E; destruct E; discriminate|].
  eapply (@updates_other _ lg cs pl 3 Hw undefined CG_P SOL _ s5 s6); [rng|rng|rng|exact U6|exact NS5].
Qed.
(** a residual of zero gives a direction of zero *)
Lemma defined_iff k : (forall i, i < k -> ip U (it_p (t i)) (app_op U a (it_p (t i))) <> 0%R) -> forall i, i < k -> cg_defined U a x0 b i.
Proof.
  intros H i Hi. split; [apply H, Hi|]. intros E. apply (H i Hi). apply vzero_ip. apply ip_zero in E. destruct i as [|i]; [exact E|].
  intros u Hu. cbn [cg_iter] in E |- *. unfold cg_next in *. cbn [it_r it_p] in *. rewrite (E u Hu). rewrite (@vzero_ip _ U (fun u => _) _) by exact E. unfold Rdiv. ring.
Qed.
Lemma breaks_run st pl0 s k j : set_up lg cs st pl0 -> vectors_hold lg s (sols_of cs) x0 -> vectors_hold lg s (rhss_of cs) b ->
  (forall i, i < k -> cg_defined U a x0 b i) -> ip U (it_p (t k)) (app_op U a (it_p (t k))) = 0%R -> k < j ->
  wp (cg_run exact lg red pl0 j) (fun c _ s' => working lg cs 3 (cg_pl c) /\ cg_norms c <> [] /\ vector_all undefined lg (cg_pl c) s' SOL) st s.
Proof.
  intros Hs Hx Hb Hd Hz Hj. unfold cg_run. apply wp_bind. eapply wp_conseq; [apply (@cg_new_inv lg Hlg red Hred cs Hn x0 b); eassumption|]. intros c st1 s1 H0.
  replace j with (S (j - S k) + k) by lia. generalize (j - S k) as m. induction m as [|m IH]; cbn [Nat.add cg_steps].
  - apply wp_bind. eapply wp_conseq; [apply (@cg_steps_inv lg Hlg red Hred cs Hre Hn x0 b c st1 s1 H0 k Hd)|]. intros c2 st2 s2 I2.
    eapply wp_conseq; [apply (cg_step_breaks I2 Hz)|]. intros c' st' s' [H1 [_ [H2 H3]]]. auto.
  - apply wp_bind. eapply wp_conseq; [exact IH|]. intros c2 st2 s2 [W2 [E2 N2]].
    eapply wp_conseq; [apply (@cg_step_nan _ exact _ _ _ nan_theory_exact lg Hlg red cs Hn); assumption|]. intros c' st' s' [H1 [_ [H2 H3]]]; auto.
Qed.
End Step.

(** ** C99.  What every run does.  No hypothesis on the system, the guess or the right-hand side: as long as no direction p of
    the textbook iteration has <p, A p> = 0 the solver computes the textbook iterates; from the first one that has, every entry of the solution is undefined. *)
Theorem C99_every_run : forall lg red (cs : list (setup_call (option R))) st pl0 s x0 b j,
  legion_ok lg -> legal_reduction exact red -> set_up lg cs st pl0 -> real_entries cs -> 0 < length (sols_of cs) ->
  vectors_hold lg s (sols_of cs) x0 -> vectors_hold lg s (rhss_of cs) b ->
  let us := unknowns lg cs in
  let a := operator cs in
  let t i := cg_iter us a x0 b i in
  accepted (cg_run exact lg red pl0 j) st /\
  forall c st' s', ends (cg_run exact lg red pl0 j) st s c st' s' ->
    ((forall i, i < j -> form us a (it_p (t i)) <> 0%R) -> vectors_hold lg s' (sols_of cs) (it_x (t j))) /\
    ((exists i, i < j /\ form us a (it_p (t i)) = 0%R) -> vectors_all (fun x => x = None) lg s' (sols_of cs)).
Proof.
  intros lg red cs st pl0 s x0 b j Hlg Hred Hs Hre Hn Hx Hb us a t.
  assert (F : forall i, {form us a (it_p (t i)) = 0%R} + {form us a (it_p (t i)) <> 0%R}) by (intros i; apply Req_EM_T).
  assert (G : forall m, (forall i, i < m -> form us a (it_p (t i)) <> 0%R) \/ exists k, k < m /\ form us a (it_p (t k)) = 0%R /\ forall i, i < k -> form us a (it_p (t i)) <> 0%R).
  { induction m as [|m [IH|(k & K1 & K2 & K3)]]; [left; intros; lia| |right; exists k; split; [lia|auto]].
    destruct (F m) as [E|E]; [right; exists m; split; [lia|auto]|left; intros i Hi; destruct (Nat.eq_dec i m) as [->|]; [exact E|apply IH; lia]]. }
  destruct (G j) as [H|(k & K1 & K2 & K3)].
  - assert (D : forall i, i < j -> cg_defined us a x0 b i) by (apply (@defined_iff lg cs x0 b j); exact H).
    destruct (@C36_cg_is_textbook_cg lg red cs st pl0 s x0 b j Hlg Hred Hs Hre Hn Hx Hb D) as [A E]. split; [exact A|]. intros c st' s' He. split; [intros _; apply (E c st' s' He)|].
    intros (i & Hi & Z). exfalso. apply (H i Hi Z).
  - assert (D : forall i, i < k -> cg_defined us a x0 b i) by (apply (@defined_iff lg cs x0 b k); exact K3).
    assert (W := @breaks_run lg Hlg red Hred cs Hre Hn x0 b st pl0 s k j Hs Hx Hb D K2 K1).
    split; [eapply wp_accepted; exact W|]. intros c st' s' He. destruct (wp_ends W He) as [s1 [[Hw [_ H]] E]]. split; [intros N; exfalso; apply (N k K1 K2)|].
    intros _ v p Hv Hpp. rewrite E. apply (@all_sol _ lg cs (fun x => x = None) _ _ Hw H v p Hv Hpp).
Qed.

(** ** Definite systems, of either sign *)
Theorem C99_definite_solves : forall lg red (cs : list (setup_call (option R))) st pl0 s x0 b,
  legion_ok lg -> legal_reduction exact red -> set_up lg cs st pl0 -> real_entries cs -> 0 < length (sols_of cs) ->
  vectors_hold lg s (sols_of cs) x0 -> vectors_hold lg s (rhss_of cs) b ->
  let us := unknowns lg cs in
  let a := operator cs in
  symmetric us a -> definite us a ->
  exists (n : nat) (x : unknown -> R), n <= length us /\ accepted (cg_run exact lg red pl0 n) st /\
    (forall c st' s', ends (cg_run exact lg red pl0 n) st s c st' s' -> vectors_hold lg s' (sols_of cs) x) /\
    (forall u, In u us -> apply_op us a (fun v => x v - x0 v)%R u = b u).
Proof.
  intros lg red cs st pl0 s x0 b Hlg Hred Hs Hre Hn Hx Hb us a Hsym Hd.
  destruct (@definite_terminates us a (@unknowns_nodup _ lg cs Hlg) Hsym x0 b Hd) as (n & N1 & N2 & N3).
  destruct (@C36_cg_is_textbook_cg lg red cs st pl0 s x0 b n Hlg Hred Hs Hre Hn Hx Hb N2) as [A E].
  exists n, (it_x (cg_iter us a x0 b n)). split; [exact N1|]. split; [exact A|]. split; [intros c st' s' He; apply (E c st' s' He)|].
  intros u Hu. pose proof (residual_identity us a x0 b n u) as R. rewrite (N3 u Hu) in R. change (apply_op us a) with (app_op us a).
  change (app_op us a (fun v => it_x (cg_iter us a x0 b n) v - x0 v)%R u) with (app_op us a (vsub (it_x (cg_iter us a x0 b n)) x0) u). lra.
Qed.

(** ** Systems that are not definite: there is a right-hand side for which every step undefines every entry *)
Theorem C99_indefinite_fails : forall lg (cs : list (setup_call (option R))),
  legion_ok lg -> real_entries cs -> 0 < length (sols_of cs) ->
  let us := unknowns lg cs in
  indefinite us (operator cs) ->
  exists b : unknown -> R, nonzero us b /\
    forall red st pl0 s x0 j, legal_reduction exact red -> set_up lg cs st pl0 ->
      vectors_hold lg s (sols_of cs) x0 -> vectors_hold lg s (rhss_of cs) b -> 0 < j ->
      accepted (cg_run exact lg red pl0 j) st /\
      forall c st' s', ends (cg_run exact lg red pl0 j) st s c st' s' -> vectors_all (fun x => x = None) lg s' (sols_of cs).
Proof.
  intros lg cs Hlg Hre Hn us Hi. destruct (isotropic Hi) as (b & Nb & Fb). exists b. split; [exact Nb|].
  intros red st pl0 s x0 j Hred Hs Hx Hb Hj. destruct (@C99_every_run lg red cs st pl0 s x0 b j Hlg Hred Hs Hre Hn Hx Hb) as [A E].
  split; [exact A|]. intros c st' s' He. apply (E c st' s' He). exists 0. split; [exact Hj|exact Fb].
Qed.

(** ** ... and nothing else: with a zero initial guess, a symmetric system is solved for every right-hand side exactly if it is definite *)
Section Store.
Variable b : unknown -> R.
(** a store in which the vectors [vs] (from component [i] on) contain [b] and everything else is zero *)
Fixpoint entry_at (i : nat) (vs : list pvec) (region fid : nat) (p : point) : R :=
  match vs with
  | [] => 0%R
  | v :: vs' => if (pv_region v =? region) && (pv_fid v =? fid) then b (i, p) else entry_at (S i) vs' region fid p
  end.
Definition store_of (vs : list pvec) : store loc (option R) :=
  fun l => match l with LVec region fid p => Some (entry_at 0 vs region fid p) | _ => Some 0%R end.
Lemma entry_at_in vs : NoDup (map storage vs) -> forall i j v p, nth_error vs j = Some v -> entry_at i vs (pv_region v) (pv_fid v) p = b (i + j, p).
Proof.
  induction vs as [|w vs IH]; intros Hd i j v p H; [destruct j; discriminate|]. cbn [map] in Hd. inversion Hd as [|? ? Hn Hd']; subst. cbn [entry_at]. destruct j as [|j]; cbn [nth_error] in H.
  - injection H as ->. rewrite !Nat.eqb_refl, Nat.add_0_r. reflexivity.
  - destruct (pv_region w =? pv_region v) eqn:E1; [destruct (pv_fid w =? pv_fid v) eqn:E2|]; cbn [andb]; try (rewrite (IH Hd' (S i) j v p H); f_equal; f_equal; lia).
    exfalso. apply Hn. apply Nat.eqb_eq in E1. apply Nat.eqb_eq in E2. replace (storage w) with (storage v) by (unfold storage; congruence). apply in_map. eapply nth_error_In; exact H.
Qed.
Lemma entry_at_out vs i region fid p : ~ In (region, fid) (map storage vs) -> entry_at i vs region fid p = 0%R.
Proof.
  revert i. induction vs as [|w vs IH]; intros i H; [reflexivity|]. cbn [entry_at map In] in *. destruct ((pv_region w =? region) && (pv_fid w =? fid)) eqn:E; [|apply IH; tauto].
  exfalso. apply H. left. apply andb_true_iff in E. destruct E as [E1 E2]. apply Nat.eqb_eq in E1. apply Nat.eqb_eq in E2. unfold storage. congruence.
Qed.
End Store.
Lemma store_exists lg (sols rhss : list pvec) (b : unknown -> R) : NoDup (map storage (sols ++ rhss)) ->
  vectors_hold lg (store_of b rhss) sols (fun _ => 0%R) /\ vectors_hold lg (store_of b rhss) rhss b.
Proof.
  rewrite map_app. intros Hd. split; intros i v p Hi Hp; unfold store_of, at_point; f_equal.
  - apply entry_at_out. intros H. apply (NoDup_app_disj _ _ (pv_region v, pv_fid v) Hd); [|exact H]. change (pv_region v, pv_fid v) with (storage v). apply in_map. eapply nth_error_In; exact Hi.
  - rewrite (@entry_at_in b rhss (NoDup_app_r _ _ Hd) 0 i v p Hi). reflexivity.
Qed.
Lemma form_dichotomy us a : (forall x, nonzero us x -> form us a x <> 0%R) -> definite us a.
Proof.
  intros H. assert (N : ~ indefinite us a) by (intros I; destruct (isotropic I) as (x & X1 & X2); apply (H x X1 X2)).
  destruct us as [|u us]; [left; intros x (w & [] & _)|].
  set (e := fun _ : unknown => 1%R). assert (Ne : nonzero (u :: us) e) by (exists u; split; [left; reflexivity|unfold e; lra]).
  destruct (Rtotal_order (form (u :: us) a e) 0) as [L|[Z|G]]; [right|exfalso; apply (H e Ne Z)|left]; intros x Hx.
  - destruct (Rlt_or_le (form (u :: us) a x) 0) as [|L2]; [assumption|]. exfalso. apply N. exists e, x. repeat split; auto; lra.
  - destruct (Rlt_or_le 0 (form (u :: us) a x)) as [|L2]; [assumption|]. exfalso. apply N. exists x, e. repeat split; auto; lra.
Qed.
Theorem C99_works_iff_definite : forall lg red (cs : list (setup_call (option R))) st pl0,
  legion_ok lg -> legal_reduction exact red -> set_up lg cs st pl0 -> real_entries cs -> 0 < length (sols_of cs) ->
  let us := unknowns lg cs in
  let a := operator cs in
  symmetric us a ->
  (definite us a <->
   forall s b, vectors_hold lg s (sols_of cs) (fun _ => 0%R) -> vectors_hold lg s (rhss_of cs) b ->
     exists (n : nat) (x : unknown -> R), accepted (cg_run exact lg red pl0 n) st /\
       (forall c st' s', ends (cg_run exact lg red pl0 n) st s c st' s' -> vectors_hold lg s' (sols_of cs) x) /\
       (forall u, In u us -> apply_op us a x u = b u)).
Proof.
  intros lg red cs st pl0 Hlg Hred Hs Hre Hn us a Hsym. split.
  - intros Hd s b Hx Hb. destruct (@C99_definite_solves lg red cs st pl0 s _ b Hlg Hred Hs Hre Hn Hx Hb Hsym Hd) as (n & x & _ & A & E & S).
    exists n, x. split; [exact A|]. split; [exact E|]. intros u Hu. rewrite <- (S u Hu). unfold apply_op. apply Rsum_ext. intros v _. rewrite Rminus_0_r. reflexivity.
  - intros H. apply form_dichotomy. intros b Nb Fb. destruct (@store_exists lg (sols_of cs) (rhss_of cs) b (wf_storage (proj1 Hs))) as [Hx Hb].
    set (s := store_of b (rhss_of cs)) in *. destruct (H s b Hx Hb) as (n & x & A & E & S). destruct (accepted_ends s A) as (c & st' & s' & He).
    specialize (E c st' s' He). destruct Nb as ([i p] & Hu & Nu). destruct n as [|n].
    + (* no step: the solution is still zero *)
      destruct (@C99_every_run lg red cs st pl0 s _ b 0 Hlg Hred Hs Hre Hn Hx Hb) as [_ E0]. destruct (E0 c st' s' He) as [E1 _]. cbn [cg_iter it_x] in E1.
      assert (X : forall u, In u us -> x u = 0%R).
      { intros [j q] Hj. unfold us in Hj. apply in_unknowns in Hj. destruct Hj as [J1 J2]. destruct (nth_error (sols_of cs) j) as [v|] eqn:Ev; [|apply nth_error_None in Ev; lia].
        assert (J3 : In q (is_points lg (pv_space v))) by (unfold space_of in J2; rewrite (nth_error_nth _ _ _ Ev) in J2 || (rewrite Ev in J2); exact J2).
        assert (E1' := E1 ltac:(intros; lia) j v q Ev J3). rewrite (E j v q Ev J3) in E1'. congruence. }
      apply Nu. rewrite <- (S _ Hu). unfold apply_op. rewrite (Rsum_ext _ (fun _ => 0%R)); [apply Rsum_zero|]. intros v Hv. rewrite (X v Hv). ring.
    + destruct (@C99_every_run lg red cs st pl0 s _ b (Datatypes.S n) Hlg Hred Hs Hre Hn Hx Hb) as [_ E0]. destruct (E0 c st' s' He) as [_ E1].
      unfold us in Hu. apply in_unknowns in Hu. destruct Hu as [J1 J2]. destruct (nth_error (sols_of cs) i) as [v|] eqn:Ev; [|apply nth_error_None in Ev; lia].
      assert (J3 : In p (is_points lg (pv_space v))) by (unfold space_of in J2; rewrite (nth_error_nth _ _ _ Ev) in J2 || (rewrite Ev in J2); exact J2).
      assert (U := E1 ltac:(exists 0; split; [lia|exact Fb]) v p (nth_error_In _ _ Ev) J3). cbn beta in U. rewrite (E i v p Ev J3) in U. discriminate.
Qed.

(** diag(-1, -2) is definite; diag(1, -1) is not, and the right-hand side (1, 1) is one for which CG divides by zero at once. *)
Example C99_example :
  (exists pl0, set_up lg2 (diag_calls (-1) (-2)) ex_st pl0) /\
  definite (unknowns lg2 (diag_calls (-1) (-2))) (operator (diag_calls (-1) (-2))) /\ symmetric (unknowns lg2 (diag_calls (-1) (-2))) (operator (diag_calls (-1) (-2))) /\
  (exists pl0, set_up lg2 (diag_calls 1 (-1)) ex_st pl0) /\ legion_ok lg2 /\ real_entries (diag_calls 1 (-1)) /\
  indefinite (unknowns lg2 (diag_calls 1 (-1))) (operator (diag_calls 1 (-1))) /\
  vectors_hold lg2 ones_store (rhss_of (diag_calls 1 (-1))) (fun _ => 1%R) /\ form (unknowns lg2 (diag_calls 1 (-1))) (operator (diag_calls 1 (-1))) (fun _ => 1%R) = 0%R.
Proof.
  assert (F : forall d0 d1 f, form (unknowns lg2 (diag_calls d0 d1)) (operator (diag_calls d0 d1)) f = (d0 * f u0 * f u0 + d1 * f u1 * f u1)%R).
  { intros d0 d1 f. unfold form. change (Rsum (fun u => (f u * apply_op (unknowns lg2 (diag_calls d0 d1)) (operator (diag_calls d0 d1)) f u)%R) (unknowns lg2 (diag_calls d0 d1)))
      with (ip (unknowns lg2 (diag_calls d0 d1)) f (app_op (unknowns lg2 (diag_calls d0 d1)) (operator (diag_calls d0 d1)) f)).
    rewrite diag_unknowns, diag_ip, diag_app0, diag_app1. ring. }
  split; [apply diag_set_up|]. split.
  { right. intros x Hx. rewrite F. rewrite diag_unknowns in Hx. destruct Hx as (u & [<-|[<-|[]]] & N); [assert (0 < x u0 * x u0)%R by nra|assert (0 < x u1 * x u1)%R by nra]; nra. }
  split; [apply diag_symmetric|]. split; [apply diag_set_up|]. split; [exact lg2_ok|]. split; [apply diag_real|]. split.
  { exists (fun _ => 1%R), (fun _ => 1%R). rewrite F, diag_unknowns. assert (N : nonzero [u0; u1] (fun _ => 1%R)) by (exists u0; split; [left; reflexivity|lra]). repeat split; auto; lra. }
  split; [apply diag_b|]. rewrite F. ring.
Qed.
