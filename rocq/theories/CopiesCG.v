(** CopiesCG: conjugate gradients on several copies of one stencil system with equal right-hand sides is conjugate gradients on one copy. *)
From Coq Require Import Reals Lra Classical.
From Verif Require Import Base Index IndexSpec IndexFacts Outcome Sched Async Arith Launch Vector PartitionSpec VectorFacts LaunchFacts Matrix MatrixSpec MatrixFacts
  MatvecFacts Builder BuilderFacts Exec ExactSum LinAlg CGSpec CGMath Planner PlannerFacts PlannerSetup Solvers PropsVector PropsMatrix PropsPlanner
  StencilSpec StencilSize StencilSizeFacts StencilFill StencilFillFacts StencilLaunch StencilCreate ExampleSystems PropsSolver SolverFacts PropsCG PropsCGConv PropsStencil
  PropsConvolution StencilPositive PropsStencilCG.
Set Implicit Arguments.

Section Relabel.
Variables P Q : Type.
Variable pts : list P.
Variable us : list Q.
Variable k : nat.
Variable emb : nat -> P -> Q.
Variable a1 : P -> P -> R.
Variable a : Q -> Q -> R.
Variables x0 f : P -> R.
Variables x0' f' : Q -> R.
Hypothesis Hk : 1 <= k.
Hypothesis H1 : Permutation us (flat_map (fun i => map (emb i) pts) (seq 0 k)).
Definition same_on (g : Q -> R) (h : P -> R) : Prop := forall i p, i < k -> In p pts -> g (emb i p) = h p.
Hypothesis H2 : forall g h, same_on g h -> same_on (app_op us a g) (app_op pts a1 h).
Hypothesis Hx : same_on x0' x0.
Hypothesis Hf : same_on f' f.
Lemma ip_same g h g' h' : same_on g g' -> same_on h h' -> ip us g h = (INR k * ip pts g' h')%R.
Proof.
  intros Hg Hh. unfold ip. rewrite (Rsum_perm _ H1), Rsum_flat_map. rewrite (Rsum_ext _ (fun _ => Rsum (fun p => g' p * h' p)%R pts)).
  - rewrite <- (seq_length k 0) at 2. generalize (seq 0 k) as l. induction l as [|i l IH]; [rewrite Rsum_nil; cbn [length INR]; ring|]. rewrite Rsum_cons, IH. cbn [length]. rewrite S_INR. ring.
  - intros i Hi. apply in_seq in Hi. rewrite Rsum_map. apply Rsum_ext. intros p Hp. rewrite (Hg i p), (Hh i p) by (lia || exact Hp). reflexivity.
Qed.
Lemma ratio x y : (INR k * x / (INR k * y) = x / y)%R.
Proof.
  assert (Hk0 : INR k <> 0%R) by (apply not_0_INR; lia). destruct (Req_EM_T y 0) as [->|N]; [|field; split; assumption].
  rewrite Rmult_0_r. unfold Rdiv. rewrite Rinv_0. ring.
Qed.
Lemma cg_same n : let t := cg_iter us a x0' f' n in let u := cg_iter pts a1 x0 f n in same_on (it_x t) (it_x u) /\ same_on (it_r t) (it_r u) /\ same_on (it_p t) (it_p u).
Proof.
  induction n as [|n [I1 [I2 I3]]]; cbn zeta in *; [split; [exact Hx|split; exact Hf]|]. cbn [cg_iter]. unfold cg_next.
  set (t := cg_iter us a x0' f' n) in *. set (u := cg_iter pts a1 x0 f n) in *. cbn [it_x it_r it_p]. assert (IA := H2 I3).
  rewrite (ip_same I2 I2), (ip_same I3 IA), ratio. set (al := (ip pts (it_r u) (it_r u) / _)%R).
  assert (IR : same_on (fun q => it_r t q - al * app_op us a (it_p t) q)%R (fun p => it_r u p - al * app_op pts a1 (it_p u) p)%R).
  { intros i p Hi Hp. rewrite (I2 i p Hi Hp), (IA i p Hi Hp). reflexivity. }
  split; [intros i p Hi Hp; rewrite (I1 i p Hi Hp), (I3 i p Hi Hp); reflexivity|]. split; [exact IR|].
  rewrite (ip_same IR IR), ratio. intros i p Hi Hp. cbn beta in *. specialize (IR i p Hi Hp). cbn beta in IR. rewrite IR, (I3 i p Hi Hp). reflexivity.
Qed.
End Relabel.

(** Specification: the conjugate gradient iteration for one copy of the stencil system  (offs * x)(p) = f(p)  on the points of the box, started from zero *)
Definition grid_cg (o : IndexOrder) (b : rect) (offs : list (point * R)) (f : point -> R) (n : nat) : iterate point :=
  cg_iter (box_points o b) (fun p q => coefficient offs (padd q (popp p))) (fun _ => 0%R) f n.

Section Grid.
Variable o : IndexOrder.
Variable b : rect.
Variable offs : list (point * R).
Variable f : point -> R.
Hypothesis Hn : nonempty_box b.
Hypothesis Hd : offsets_dim b offs.
Hypothesis Hsy : symmetric_stencil b offs.
Hypothesis Hpo : positive_stencil o b offs.
Notation pts := (box_points o b).
Notation a1 := (fun p q => coefficient offs (padd q (popp p))).
Notation G := (grid_cg o b offs f).
Lemma grid_symmetric : symmetric pts a1.
Proof.
  intros p q Hp Hq. assert (Hwf := nonempty_wf _ Hn). apply (in_box_points o b _ Hwf) in Hp, Hq.
  assert (Lpq : length p = length q) by (destruct Hp as [Hp _]; destruct Hq as [Hq _]; congruence).
  rewrite Hsy, popp_diff; [reflexivity|exact Lpq|]. rewrite diff_length by exact Lpq. apply Hq.
Qed.
Lemma grid_positive : positive_definite pts a1.
Proof.
  intros x Hx. assert (Hwf := nonempty_wf _ Hn). unfold ip. rewrite (Rsum_ext _ (fun p => x p * convolve b offs x p)%R).
  - apply Hpo. destruct (classic (exists p, in_box b p /\ x p <> 0%R)) as [H|H]; [exact H|]. exfalso. apply Hx. intros p Hp. apply (in_box_points o b _ Hwf) in Hp.
    destruct (Req_EM_T (x p) 0) as [E|N]; [exact E|]. exfalso. apply H. exists p. auto.
  - intros p Hp. apply (in_box_points o b _ Hwf) in Hp. rewrite (convolve_operator o x Hwf Hd Hp). reflexivity.
Qed.
Lemma grid_residual n p : in_box b p -> it_r (G n) p = (f p - convolve b offs (it_x (G n)) p)%R.
Proof.
  intros Hp. assert (Hwf := nonempty_wf _ Hn). unfold grid_cg. rewrite (residual_identity pts a1 (fun _ => 0%R) f n p). f_equal. rewrite (convolve_operator o _ Hwf Hd Hp).
  unfold app_op. apply Rsum_ext. intros q _. unfold vsub. ring.
Qed.
Lemma grid_ip_zero n : ip pts (it_r (G n)) (it_r (G n)) = 0%R <-> forall p, in_box b p -> convolve b offs (it_x (G n)) p = f p.
Proof.
  assert (Hwf := nonempty_wf _ Hn). split.
  - intros E p Hp. assert (Z := ip_zero _ _ E). specialize (Z p (proj2 (in_box_points o b _ Hwf) Hp)). rewrite grid_residual in Z by exact Hp. lra.
  - intros H. unfold ip. rewrite (Rsum_ext _ (fun _ => 0%R)); [apply Rsum_zero|]. intros p Hp. apply (in_box_points o b _ Hwf) in Hp. rewrite grid_residual, H by exact Hp. ring.
Qed.
(** the iteration reaches the solution after at most as many steps as there are points *)
Lemma grid_solved : exists K, (Z.of_nat K <= volume b)%Z /\ (forall p, in_box b p -> convolve b offs (it_x (G K)) p = f p) /\
  forall j, j < K -> ~ (forall p, in_box b p -> convolve b offs (it_x (G j)) p = f p).
Proof.
  assert (Hwf := nonempty_wf _ Hn).
  destruct (@terminates point pts a1 (fun _ => 0%R) f) as (K & K1 & K2 & K3).
  - exact grid_symmetric.
  - exact grid_positive.
  - exact point_eq_dec.
  - apply NoDup_box_points.
  - exists K. split; [rewrite <- (box_points_length o b Hwf); lia|]. split; [apply grid_ip_zero; exact K2|]. intros j Hj H. apply (K3 j Hj). apply grid_ip_zero. exact H.
Qed.
End Grid.

(** CG on [k] copies of a symmetric positive stencil system, all with right-hand side [f] *)
Theorem copies_cg : forall ltT (o : IndexOrder) (b : rect) (offs : list (point * R)) (lg : legion) red (linear : bool)
    (m : matrix (option R)) (sp k : nat) (cs : list (setup_call (option R))) st pl0 s (f : point -> R) (K : nat),
  lo b <> [] -> nonempty_box b -> offsets_dim b offs -> symmetric_stencil b offs -> positive_stencil o b offs ->
  legion_ok lg -> legal_reduction exact red -> set_up lg cs st pl0 ->
  grid_space linear o b (is_points lg sp) -> stencil_matrix exact ltT o b (real_offsets offs) sp linear m ->
  1 <= k -> length (sols_of cs) = k -> (forall v, In v (sols_of cs ++ rhss_of cs) -> pv_space v = sp) -> mats_of cs = copies k m ->
  (forall v, In v (sols_of cs) -> holds_grid linear o b s v (fun _ => 0%R)) ->
  (forall v, In v (rhss_of cs) -> holds_grid linear o b s v f) ->
  (forall p, in_box b p -> convolve b offs (it_x (grid_cg o b offs f K)) p = f p) ->
  (forall j, j < K -> ~ (forall p, in_box b p -> convolve b offs (it_x (grid_cg o b offs f j)) p = f p)) ->
  forall j c st' s', ends (cg_run exact lg red pl0 j) st s c st' s' -> forall v, In v (sols_of cs) ->
    (j <= K -> holds_grid linear o b s' v (it_x (grid_cg o b offs f j))) /\
    (K < j -> forall q, In q (is_points lg sp) -> s' (at_point v q) = None).
Proof.
  intros ltT o b offs lg red linear m sp k cs st pl0 s f K Hlo Hn Hd Hsy Hpo Hlg Hred Hs Hg Hm Hk1 Hk Hsp Hmat Hx Hb HK1 HK2 j c st' s' He v Hv.
  assert (Hwf := nonempty_wf _ Hn).
  assert (Hsp1 : forall v, In v (sols_of cs) -> pv_space v = sp) by (intros w Hw; apply Hsp, in_app_iff; left; exact Hw).
  assert (Hsp2 : forall v, In v (rhss_of cs) -> pv_space v = sp) by (intros w Hw; apply Hsp, in_app_iff; right; exact Hw).
  set (dec := fun q : point => match find (fun p => if point_eq_dec (stored linear o b p) q then true else false) (box_points o b) with Some p => p | None => [] end).
  assert (Dec : forall p, in_box b p -> dec (stored linear o b p) = p).
  { intros p Hp. unfold dec. destruct (find _ (box_points o b)) as [p'|] eqn:F.
    - apply find_some in F. destruct F as [F1 F2]. apply (in_box_points o b _ Hwf) in F1. destruct (point_eq_dec _ _) as [E|]; [|discriminate]. eapply stored_inj; eassumption.
    - exfalso. apply (in_box_points o b _ Hwf) in Hp. apply (find_none _ _ F) in Hp. destruct (point_eq_dec _ _); [discriminate|congruence]. }
  set (bu := fun u : unknown => f (dec (snd u))).
  set (us := unknowns lg cs). set (a := operator cs).
  assert (Up : Permutation us (flat_map (fun i => map (fun p => (i, stored linear o b p)) (box_points o b)) (seq 0 k))) by (eapply unknowns_perm; eassumption).
  assert (Hsym : symmetric us a) by (eapply copies_symmetric; eassumption).
  assert (Hpd : positive_definite us a) by (eapply copies_positive; eassumption).
  assert (Iu : forall u, In u us -> exists i p, i < k /\ in_box b p /\ u = (i, stored linear o b p)) by (intros u Hu; eapply in_unknowns_copies; eassumption).
  assert (Same := @cg_same _ _ (box_points o b) us k (fun i p => (i, stored linear o b p)) (fun p q => coefficient offs (padd q (popp p))) a (fun _ => 0%R) f (fun _ => 0%R) bu Hk1 Up).
  assert (S := fun n => Same ltac:(
    intros g h Hgh i p Hi Hp; apply (in_box_points o b _ Hwf) in Hp; etransitivity; [exact (@apply_copies ltT o b offs Hlo Hn Hd sp linear m Hm lg Hlg Hg k cs Hk Hsp1 Hmat g i p Hi Hp)|];
    rewrite <- (convolve_operator o _ Hwf Hd Hp); unfold convolve; apply Rsum_ext; intros oe _; f_equal; unfold zero_outside; destruct (contains b (padd p (fst oe))) eqn:C; [|reflexivity];
    apply (Hgh i); [exact Hi|apply in_box_points; [exact Hwf|apply contains_iff; exact C]])
    ltac:(intros i p _ _; reflexivity)
    ltac:(intros i p _ Hp; apply (in_box_points o b _ Hwf) in Hp; unfold bu; cbn [snd]; rewrite Dec by exact Hp; reflexivity) n).
  clear Same. cbn zeta in S. fold (grid_cg o b offs f) in S.
  assert (Hre : real_entries cs). { intros m' d r Hin. rewrite Hmat in Hin. unfold copies in Hin. apply in_map_iff in Hin. destruct Hin as [i [E _]]. injection E as <- <- <-. exact (stencil_values Hlo Hn Hd Hm). }
  assert (Hl : 0 < length (sols_of cs)) by lia.
  assert (HX : vectors_hold lg s (sols_of cs) (fun _ => 0%R)).
  { intros i w q Hw Hq. rewrite (Hsp1 w (nth_error_In _ _ Hw)) in Hq. apply Hg in Hq. destruct Hq as [p [Hp ->]]. exact (Hx w (nth_error_In _ _ Hw) p Hp). }
  assert (HB : vectors_hold lg s (rhss_of cs) bu).
  { intros i w q Hw Hq. rewrite (Hsp2 w (nth_error_In _ _ Hw)) in Hq. apply Hg in Hq. destruct Hq as [p [Hp ->]]. rewrite (Hb w (nth_error_In _ _ Hw) p Hp). unfold bu. cbn [fst snd]. rewrite Dec by exact Hp. reflexivity. }
  assert (Ipq : forall n, ip us (it_r (cg_iter us a (fun _ => 0%R) bu n)) (it_r (cg_iter us a (fun _ => 0%R) bu n)) = (INR k * ip (box_points o b) (it_r (grid_cg o b offs f n)) (it_r (grid_cg o b offs f n)))%R).
  { intros n. apply (ip_same Hk1 Up); apply (S n). }
  assert (Hk0 : INR k <> 0%R) by (apply not_0_INR; lia).
  assert (N3 : forall i, i < K -> ip us (it_r (cg_iter us a (fun _ => 0%R) bu i)) (it_r (cg_iter us a (fun _ => 0%R) bu i)) <> 0%R).
  { intros i Hi E. rewrite Ipq in E. apply Rmult_integral in E. destruct E as [E|E]; [contradiction|]. apply (HK2 i Hi). apply (grid_ip_zero o f Hn Hd). exact E. }
  assert (Df := @defined_while_nonzero _ us a (fun _ => 0%R) bu Hsym Hpd K N3).
  split.
  - intros Hj. destruct (@C36_cg_is_textbook_cg lg red cs st pl0 s (fun _ => 0%R) bu j Hlg Hred Hs Hre Hl HX HB) as [_ C]; [intros i Hi; apply Df; lia|].
    destruct (C c st' s' He) as [C1 _]. intros p Hp. apply In_nth_error in Hv. destruct Hv as [i Hi].
    rewrite (C1 i v (stored linear o b p) Hi) by (rewrite (Hsp1 v (nth_error_In _ _ Hi)); apply Hg; exists p; auto). f_equal. apply (S j); [|apply in_box_points; assumption].
    rewrite <- Hk. apply nth_error_Some. rewrite Hi. discriminate.
  - intros Hj q Hq. destruct (@C39_step_after_convergence lg red cs st pl0 s (fun _ => 0%R) bu K j Hlg Hred Hs Hre Hl HX HB Df) as [_ C].
    + apply ip_zero. fold us a. rewrite Ipq. assert (E : ip (box_points o b) (it_r (grid_cg o b offs f K)) (it_r (grid_cg o b offs f K)) = 0%R) by (apply (grid_ip_zero o f Hn Hd); exact HK1). rewrite E. ring.
    + exact Hj.
    + apply (C c st' s' He v q Hv). rewrite (Hsp1 v Hv). exact Hq.
Qed.
