(** PropsCGRate: property C85 (how fast conjugate gradients converge). *)
From Coq Require Import Reals Lra.
From Verif Require Import Base Index Outcome Sched Async Arith Launch Vector PartitionSpec VectorFacts LaunchFacts Matrix MatrixSpec MatrixFacts
  MatvecFacts Builder BuilderFacts Exec ExactSum LinAlg CGSpec CGMath Planner PlannerFacts PlannerSetup Solvers PropsVector PropsMatrix PropsPlanner
  PropsSolver SolverFacts PropsCG PropsCGConv Chebyshev IndexSpec IndexFacts StencilSpec StencilSize StencilSizeFacts StencilFill StencilFillFacts StencilLaunch StencilCreate PropsStencil PropsConvolution
  StencilPositive StencilRayleigh PropsStencilCG.
Set Implicit Arguments.

(** the squared Euclidean norm *)
Definition norm2 (us : list unknown) (f : unknown -> R) : R := Rsum (fun u => f u * f u)%R us.
(** the operator's Rayleigh quotients lie between [m] and [M] *)
Definition rayleigh_bounds (us : list unknown) (a : unknown -> unknown -> R) (m M : R) : Prop :=
  forall f, (m * norm2 us f <= energy_norm2 us a f <= M * norm2 us f)%R.
(** the convergence factor per step, (sqrt(M/m) - 1) / (sqrt(M/m) + 1) *)
Definition cg_factor (m M : R) : R := ((sqrt M - sqrt m) / (sqrt M + sqrt m))%R.

Theorem C85_cg_rate : forall lg red (cs : list (setup_call (option R))) st pl0 s x0 b m M,
  legion_ok lg -> legal_reduction exact red -> set_up lg cs st pl0 -> real_entries cs -> 0 < length (sols_of cs) ->
  vectors_hold lg s (sols_of cs) x0 -> vectors_hold lg s (rhss_of cs) b ->
  let us := unknowns lg cs in
  let a := operator cs in
  symmetric us a -> (0 < m < M)%R -> rayleigh_bounds us a m M ->
  exists (n : nat) (x : nat -> unknown -> R), n <= length us /\
    (forall u, In u us -> apply_op us a (fun v => x n v - x0 v)%R u = b u) /\
    forall k, k <= n -> accepted (cg_run exact lg red pl0 k) st /\
      (* the error in the energy norm, with respect to any solution z *)
      (forall z, (forall u, In u us -> apply_op us a z u = b u) ->
        (energy_norm2 us a (fun u => z u - (x k u - x0 u)) <= 4 * cg_factor m M ^ (2 * k) * energy_norm2 us a z)%R) /\
      forall c st' s', ends (cg_run exact lg red pl0 k) st s c st' s' ->
        vectors_hold lg s' (sols_of cs) (x k) /\ length (cg_norms c) = S k /\
        (* the recorded squared residual norms *)
        forall j f, nth_error (cg_norms c) j = Some f ->
          exists v, s' (LFut f) = Some v /\ (0 <= v <= 4 * (M / m) * cg_factor m M ^ (2 * j) * norm2 us b)%R.
Proof.
  intros lg red cs st pl0 s x0 b m M Hlg Hred Hs Hre Hn Hx Hb us a Hsym HmM Hray.
  assert (Hlow : forall f, (m * ip us f f <= ip us f (app_op us a f))%R) by (intros f; apply (Hray f)).
  assert (Hhigh : forall f, (ip us f (app_op us a f) <= M * ip us f f)%R) by (intros f; apply (Hray f)).
  assert (Hpd : positive_definite us a).
  { intros f Hf. assert (L := Hlow f). assert (N := ip_pos us f). destruct N as [N|N]; [nra|]. exfalso. apply Hf. apply ip_zero. auto. }
  assert (Hnd : NoDup us) by (apply (@unknowns_nodup _ lg); assumption).
  destruct (@terminates _ us a x0 b Hsym Hpd unknown_dec Hnd) as [n [H1 [H2 H3]]].
  set (t := cg_iter us a x0 b) in *.
  exists n, (fun k => it_x (t k)). split; [exact H1|].
  assert (Hz : forall u, In u us -> it_r (t n) u = 0%R) by (apply ip_zero; exact H2).
  assert (Hsol : forall u, In u us -> app_op us a (vsub (it_x (t n)) x0) u = b u).
  { intros u Hu. assert (E := residual_identity us a x0 b n u). fold t in E. rewrite (Hz u Hu) in E. lra. }
  split; [exact Hsol|].
  assert (Hrate : forall z, (forall u, In u us -> app_op us a z u = b u) -> forall k, k <= n ->
    (energy us a (err us a x0 b z k) <= 4 * cg_factor m M ^ (2 * k) * energy us a z)%R).
  { intros z Hzz k Hk.
    destruct (@chebyshev_competitor _ us a m M Hsym (proj1 HmM) (proj2 HmM) Hlow Hhigh z b Hzz (krylov us a b)) with (k := k) as [d D].
    { intros u _. reflexivity. }
    { intros i u _. reflexivity. }
    assert (Hk3 : forall i, i < k -> ip us (it_r (cg_iter us a x0 b i)) (it_r (cg_iter us a x0 b i)) <> 0%R) by (intros i Hik; apply H3; lia).
    eapply Rle_trans; [exact (@optimal _ us a x0 b Hsym Hpd z Hzz k Hk3 d)|].
    rewrite pow_mult. replace (cg_factor m M ^ 2)%R with (cg_factor m M * cg_factor m M)%R by ring.
    eapply Rle_trans; [right|exact D]. unfold energy, eip.
    assert (V : veq us (vsub (vadd x0 z) (vadd x0 (fun u => Rsum (fun i => d i * krylov us a b i u)%R (seq 0 k)))) (fun u => z u - Rsum (fun i => d i * krylov us a b i u) (seq 0 k))%R).
    { intros u _. unfold vsub, vadd. ring. }
    apply ip_ext; [exact V|]. intros u _. apply app_ext. exact V. }
  intros k Hk. destruct (@C36_cg_is_textbook_cg lg red cs st pl0 s x0 b k Hlg Hred Hs Hre Hn Hx Hb) as [G1 G2].
  { intros j Hj. apply (@defined_while_nonzero _ us a x0 b Hsym Hpd n H3). lia. }
  split; [exact G1|]. split.
  - intros z Hzz. eapply Rle_trans; [right|exact (Hrate z Hzz k Hk)].
    unfold energy_norm2, energy. change (apply_op us a) with (app_op us a).
    assert (V : veq us (fun u => z u - (it_x (t k) u - x0 u))%R (err us a x0 b z k)) by (intros u _; unfold err, vsub, vadd; fold t; ring).
    apply (@ip_ext _ us); [exact V|]. intros u _. apply app_ext. exact V.
  - intros c st' s' He. destruct (G2 c st' s' He) as [K1 [_ [K2 [K3 [K4 K5]]]]]. split; [exact K1|]. split; [exact K4|].
    intros j f Hf. exists (ip us (it_r (t j)) (it_r (t j))). split; [apply K5; exact Hf|]. split; [apply ip_pos|].
    assert (Hj : j <= n). { assert (j < length (cg_norms c)) by (apply nth_error_Some; congruence). lia. }
    set (z := vsub (it_x (t n)) x0) in *.
    assert (E := err_residual us a x0 b z Hsol j). fold t in E.
    assert (E1 : ip us (it_r (t j)) (it_r (t j)) = ip us (app_op us a (err us a x0 b z j)) (app_op us a (err us a x0 b z j))) by (symmetry; apply ip_ext; exact E).
    rewrite E1. eapply Rle_trans; [exact (@square_above _ us a m M Hsym (proj1 HmM) (proj2 HmM) Hlow Hhigh _)|].
    assert (R1 := Hrate z Hsol j Hj). unfold energy in R1.
    assert (R2 := @square_below _ us a m (proj1 HmM) Hlow z).
    assert (E2 : ip us (app_op us a z) (app_op us a z) = norm2 us b) by (apply ip_ext; exact Hsol).
    rewrite E2 in R2.
    assert (Hq : (0 <= cg_factor m M ^ (2 * j))%R).
    { rewrite pow_mult. apply pow_le. nra. }
    assert (R3 : (ip us z (app_op us a z) <= norm2 us b / m)%R).
    { apply (Rmult_le_reg_l m); [lra|]. replace (m * (norm2 us b / m))%R with (norm2 us b) by (field; lra). exact R2. }
    replace (4 * (M / m) * cg_factor m M ^ (2 * j) * norm2 us b)%R with (M * (4 * cg_factor m M ^ (2 * j) * (norm2 us b / m)))%R by (field; lra).
    apply Rmult_le_compat_l; [lra|]. eapply Rle_trans; [exact R1|]. apply Rmult_le_compat_l; [nra|exact R3].
Qed.

(** ** Stencil systems.  [k] components with the same weakly dominant stencil. *)
Section Copies.
Variable ltT : option R -> option R -> bool.
Variable o : IndexOrder.
Variable b : rect.
Variable offs : list (point * R).
Hypothesis Hlo : lo b <> [].
Hypothesis Hn : nonempty_box b.
Hypothesis Hd : offsets_dim b offs.
Variable sp : nat.
Variable linear : bool.
Variable m : matrix (option R).
Hypothesis Hm : stencil_matrix exact ltT o b (real_offsets offs) sp linear m.
Variable lg : legion.
Hypothesis Hlg : legion_ok lg.
Hypothesis Hg : grid_space linear o b (is_points lg sp).
Variable k : nat.
Variable cs : list (setup_call (option R)).
Hypothesis Hk : length (sols_of cs) = k.
Hypothesis Hsp : forall v, In v (sols_of cs) -> pv_space v = sp.
Hypothesis Hmat : mats_of cs = copies k m.
Lemma norm2_copies f : norm2 (unknowns lg cs) f = Rsum (fun i => Rsum (fun p => component_of o b linear f i p * component_of o b linear f i p)%R (box_points o b)) (seq 0 k).
Proof.
  unfold norm2. rewrite (Rsum_perm _ (@unknowns_perm o b Hn sp linear m lg Hlg Hg k cs Hk Hsp Hmat)), Rsum_flat_map. apply Rsum_ext. intros i _. rewrite Rsum_map. reflexivity.
Qed.
Lemma energy_copies f : energy_norm2 (unknowns lg cs) (operator cs) f =
  Rsum (fun i => Rsum (fun p => component_of o b linear f i p * convolve b offs (component_of o b linear f i) p)%R (box_points o b)) (seq 0 k).
Proof.
  assert (Hwf := nonempty_wf _ Hn).
  unfold energy_norm2. rewrite (Rsum_perm _ (@unknowns_perm o b Hn sp linear m lg Hlg Hg k cs Hk Hsp Hmat)), Rsum_flat_map. apply Rsum_ext. intros i Hi. apply in_seq in Hi. rewrite Rsum_map.
  apply Rsum_ext. intros p Hp. apply (in_box_points o b _ Hwf) in Hp.
  rewrite (@apply_copies ltT o b offs Hlo Hn Hd sp linear m Hm lg Hlg Hg k cs Hk Hsp Hmat f i p) by (assumption || lia). reflexivity.
Qed.
Lemma copies_rayleigh L : dominant_stencil b offs -> sides_at_most b L -> 0 < L ->
  rayleigh_bounds (unknowns lg cs) (operator cs) (centre b offs - off_centre_weight offs + off_centre_weight offs / (2 * (INR L * INR L))) (2 * centre b offs).
Proof.
  intros Hdo HL H0 f. rewrite norm2_copies, energy_copies, <- !Rsum_scal.
  split; apply Rsum_le; intros i _; apply (@stencil_rayleigh o b offs L (component_of o b linear f i) Hn Hd Hdo HL H0).
Qed.
End Copies.

(** Any number [k] of components with one symmetric, weakly dominant stencil on a box with sides of at most [L] points. *)
Theorem C85_stencil_rate : forall ltT (o : IndexOrder) (b : rect) (offs : list (point * R)) (lg : legion) red (linear : bool)
    (m : matrix (option R)) (sp k L : nat) (cs : list (setup_call (option R))) st pl0 s (f : nat -> point -> R),
  lo b <> [] -> nonempty_box b -> offsets_dim b offs -> symmetric_stencil b offs -> dominant_stencil b offs -> sides_at_most b L -> 1 <= L ->
  legion_ok lg -> legal_reduction exact red -> set_up lg cs st pl0 ->
  grid_space linear o b (is_points lg sp) -> stencil_matrix exact ltT o b (real_offsets offs) sp linear m ->
  1 <= k -> length (sols_of cs) = k -> (forall v, In v (sols_of cs ++ rhss_of cs) -> pv_space v = sp) -> mats_of cs = copies k m ->
  (forall i v, nth_error (sols_of cs) i = Some v -> holds_grid linear o b s v (fun _ => 0%R)) ->
  (forall i v, nth_error (rhss_of cs) i = Some v -> holds_grid linear o b s v (f i)) ->
  let weight := off_centre_weight offs in
  let low := (centre b offs - weight + weight / (2 * (INR L * INR L)))%R in
  let high := (2 * centre b offs)%R in
  (0 < low < high)%R /\
  exists (n : nat) (x : nat -> nat -> point -> R), (Z.of_nat n <= Z.of_nat k * volume b)%Z /\
    (forall i p, i < k -> in_box b p -> convolve b offs (x n i) p = f i p) /\
    forall j, j <= n -> accepted (cg_run exact lg red pl0 j) st /\
      forall c st' s', ends (cg_run exact lg red pl0 j) st s c st' s' ->
        (forall i v, nth_error (sols_of cs) i = Some v -> holds_grid linear o b s' v (x j i)) /\
        length (cg_norms c) = S j /\
        forall i g, nth_error (cg_norms c) i = Some g ->
          exists v, s' (LFut g) = Some v /\
            (0 <= v <= 4 * (high / low) * cg_factor low high ^ (2 * i) * Rsum (fun l => Rsum (fun p => f l p * f l p) (box_points o b)) (seq 0 k))%R.
Proof.
  intros ltT o b offs lg red linear m sp k L cs st pl0 s f Hlo Hn Hd Hsy Hdo HL HL1 Hlg Hred Hs Hg Hm Hk1 Hk Hsp Hmat Hx Hb weight low high.
  assert (Hwf := nonempty_wf _ Hn).
  assert (Hlh : (0 < low < high)%R).
  { destruct Hdo as [D0 D1]. fold weight in D1. assert (W0 : (0 <= weight)%R) by (apply Rsum_nonneg; intros oe _; destruct (is_origin (fst oe)); [lra|apply Rabs_pos]).
    assert (HLp : (1 <= INR L)%R) by (apply (le_INR 1 L); exact HL1). set (c := centre b offs) in *. unfold low, high.
    set (q := (INR L * INR L)%R). assert (Hq : (1 <= q)%R) by (unfold q; nra).
    assert (E : (weight / (2 * q) = weight * / (2 * q))%R) by reflexivity.
    assert (Hi : (0 < / (2 * q))%R) by (apply Rinv_0_lt_compat; lra).
    assert (Hi2 : (/ (2 * q) <= / 2)%R) by (apply Rinv_le_contravar; lra).
    rewrite E. split; [|nra]. destruct (Rle_lt_or_eq_dec 0 weight W0) as [W|W]; [nra|rewrite <- W in *; lra]. }
  split; [exact Hlh|].
  assert (Hsp1 : forall v, In v (sols_of cs) -> pv_space v = sp) by (intros v Hv; apply Hsp, in_app_iff; left; exact Hv).
  assert (Hsp2 : forall v, In v (rhss_of cs) -> pv_space v = sp) by (intros v Hv; apply Hsp, in_app_iff; right; exact Hv).
  (* a function on the stored points *)
  set (dec := fun q : point => match find (fun p => if point_eq_dec (stored linear o b p) q then true else false) (box_points o b) with Some p => p | None => [] end).
  assert (Dec : forall p, in_box b p -> dec (stored linear o b p) = p).
  { intros p Hp. unfold dec. destruct (find _ (box_points o b)) as [p'|] eqn:F.
    - apply find_some in F. destruct F as [F1 F2]. apply (in_box_points o b _ Hwf) in F1. destruct (point_eq_dec _ _) as [E|]; [|discriminate]. eapply stored_inj; eassumption.
    - exfalso. apply (in_box_points o b _ Hwf) in Hp. apply (find_none _ _ F) in Hp. destruct (point_eq_dec _ _); [discriminate|congruence]. }
  set (bu := fun u : unknown => f (fst u) (dec (snd u))).
  destruct (@C85_cg_rate lg red cs st pl0 s (fun _ => 0%R) bu low high Hlg Hred Hs) as [n [x [K1 [K2 K3]]]].
  - intros m' d r Hin. rewrite Hmat in Hin. unfold copies in Hin. apply in_map_iff in Hin. destruct Hin as [i [E _]]. injection E as <- <- <-. exact (stencil_values Hlo Hn Hd Hm).
  - lia.
  - intros i v q Hv Hq. rewrite (Hsp1 v (nth_error_In _ _ Hv)) in Hq. apply Hg in Hq. destruct Hq as [p [Hp ->]]. exact (Hx i v Hv p Hp).
  - intros i v q Hv Hq. rewrite (Hsp2 v (nth_error_In _ _ Hv)) in Hq. apply Hg in Hq. destruct Hq as [p [Hp ->]]. rewrite (Hb i v Hv p Hp). unfold bu. cbn [fst snd]. rewrite Dec by exact Hp. reflexivity.
  - eapply copies_symmetric; eassumption.
  - exact Hlh.
  - eapply copies_rayleigh; eassumption.
  - exists n, (fun j i p => x j (i, stored linear o b p)).
    assert (Ap : forall y i p, i < k -> in_box b p -> apply_op (unknowns lg cs) (operator cs) y (i, stored linear o b p) = convolve b offs (fun p => y (i, stored linear o b p)) p).
    { intros y i p Hi Hp. exact (@apply_copies ltT o b offs Hlo Hn Hd sp linear m Hm lg Hlg Hg k cs Hk Hsp1 Hmat y i p Hi Hp). }
    assert (Iu : forall i p, i < k -> in_box b p -> In (i, stored linear o b p) (unknowns lg cs)).
    { intros i p Hi Hp. eapply copies_in_unknowns; eassumption. }
    assert (Eb : norm2 (unknowns lg cs) bu = Rsum (fun l => Rsum (fun p => f l p * f l p)%R (box_points o b)) (seq 0 k)).
    { erewrite norm2_copies by eassumption. apply Rsum_ext. intros i _. apply Rsum_ext. intros p Hp. apply (in_box_points o b _ Hwf) in Hp. unfold component_of, bu. cbn [fst snd]. rewrite Dec by exact Hp. reflexivity. }
    split; [|split].
    + rewrite <- (box_points_length o b Hwf), <- Nat2Z.inj_mul. apply inj_le. assert (Cn : length (unknowns lg cs) = k * length (box_points o b)) by (eapply copies_count; eassumption). rewrite <- Cn. exact K1.
    + intros i p Hi Hp. rewrite <- (Ap (x n) i p Hi Hp). assert (E := K2 _ (Iu i p Hi Hp)). unfold bu in E. cbn [fst snd] in E. rewrite Dec in E by exact Hp. rewrite <- E.
      unfold apply_op. apply Rsum_ext. intros v _. rewrite Rminus_0_r. reflexivity.
    + intros j Hj. destruct (K3 j Hj) as [J1 [_ J2]]. split; [exact J1|]. intros c st' s' He. destruct (J2 c st' s' He) as [J3 [J4 J5]]. split; [|split; [exact J4|]].
      * intros i v Hv p Hp. apply (J3 i v (stored linear o b p) Hv). rewrite (Hsp1 v (nth_error_In _ _ Hv)). apply Hg. exists p. auto.
      * intros i g Hgi. rewrite <- Eb. exact (J5 i g Hgi).
Qed.

(** The systems BenchmarkStencil sets up, with sides of at most [L] points: the recorded squared residual norm after [i]
    steps is at most 16 L^2 ((2L-1)/(2L+1))^(2i) times the squared norm of the right-hand side, for every number of steps
    up to one that leaves the solutions. *)
Lemma benchmark_weights dim nx ny nz : off_centre_weight (benchmark_offsets dim) = centre (benchmark_box dim nx ny nz) (benchmark_offsets dim).
Proof.
  rewrite centre_sum by apply benchmark_dim. unfold off_centre_weight, benchmark_offsets. rewrite !Rsum_map.
  destruct dim as [|[|[|[|d]]]]; cbn [benchmark_numerators]; rewrite !Rsum_cons, !Rsum_nil; cbn [fst snd is_origin forallb Z.eqb andb benchmark_denominator Nat.leb];
    repeat match goal with |- context [Rabs ?x] => rewrite (@Rabs_left x) by lra end; lra.
Qed.
Lemma benchmark_sides dim nx ny nz L : (nx <= Z.of_nat L)%Z -> (ny <= Z.of_nat L)%Z -> (nz <= Z.of_nat L)%Z -> sides_at_most (benchmark_box dim nx ny nz) L.
Proof. intros Hx Hy Hz i Hi. destruct dim as [|[|[|d]]]; cbn [benchmark_box lo hi length] in *; destruct i as [|[|[|i]]]; cbn [nth]; lia. Qed.
Lemma grid_factor c l : (0 < c)%R -> (1 <= l)%R -> cg_factor (c / (2 * (l * l))) (2 * c) = ((2 * l - 1) / (2 * l + 1))%R.
Proof.
  intros Hc Hl. unfold cg_factor. set (m := (c / (2 * (l * l)))%R).
  assert (Hm : (0 < m)%R) by (apply Rdiv_lt_0_compat; nra).
  assert (E : (2 * c = (2 * l) * (2 * l) * m)%R) by (unfold m; field; lra).
  rewrite E, sqrt_mult by nra. rewrite sqrt_square by lra. assert (Hs := sqrt_lt_R0 _ Hm). field. split; [lra|nra].
Qed.
Theorem C85_benchmark_rate : forall ltT lg red (dim L : nat) (nx ny nz : Z) (sol sol1 rhs rhs1 : pvec) (sp pt : nat) (m : matrix (option R)) st s (f f1 : point -> R),
  let b := benchmark_box dim nx ny nz in
  1 <= dim <= 4 -> (1 <= nx <= Z.of_nat L)%Z -> (1 <= ny <= Z.of_nat L)%Z -> (1 <= nz <= Z.of_nat L)%Z ->
  legion_ok lg -> legal_reduction exact red ->
  (forall q, In q (is_points lg sp) <-> exists k, (0 <= k < volume b)%Z /\ q = [k]) ->
  stencil_matrix exact ltT ROW_MAJOR b (real_offsets (benchmark_offsets dim)) sp true m ->
  (forall v, In v [sol; sol1; rhs; rhs1] -> constructed lg v /\ pv_space v = sp /\ pv_part v = pt /\ pv_region v < next_region st) ->
  NoDup (map storage [sol; sol1; rhs; rhs1]) ->
  holds_grid true ROW_MAJOR b s sol (fun _ => 0%R) -> holds_grid true ROW_MAJOR b s sol1 (fun _ => 0%R) ->
  holds_grid true ROW_MAJOR b s rhs f -> holds_grid true ROW_MAJOR b s rhs1 f1 ->
  exists pl0 (n : nat) (x x1 : nat -> point -> R), do_calls lg (new_planner (option R)) (benchmark_calls sol sol1 rhs rhs1 m) = Ok pl0 /\
    (Z.of_nat n <= 2 * volume b)%Z /\
    (forall p, in_box b p -> convolve b (benchmark_offsets dim) (x n) p = f p /\ convolve b (benchmark_offsets dim) (x1 n) p = f1 p) /\
    forall j, j <= n -> accepted (cg_run exact lg red pl0 j) st /\
      forall c st' s', ends (cg_run exact lg red pl0 j) st s c st' s' ->
        holds_grid true ROW_MAJOR b s' sol (x j) /\ holds_grid true ROW_MAJOR b s' sol1 (x1 j) /\
        length (cg_norms c) = S j /\
        forall i g, nth_error (cg_norms c) i = Some g ->
          exists v, s' (LFut g) = Some v /\
            (0 <= v <= 16 * (INR L * INR L) * ((2 * INR L - 1) / (2 * INR L + 1)) ^ (2 * i) *
               (Rsum (fun p => f p * f p) (box_points ROW_MAJOR b) + Rsum (fun p => f1 p * f1 p) (box_points ROW_MAJOR b)))%R.
Proof.
  intros ltT lg red dim L nx ny nz sol sol1 rhs rhs1 sp pt m st s f f1 b Hdim Hx Hy Hz Hlg Hred Hpts Hm Hv Hnd S0 S1 R0 R1.
  destruct (benchmark_nonempty dim (proj1 Hx) (proj1 Hy) (proj1 Hz)) as [Hn Hlo]. fold b in Hn, Hlo.
  assert (Hd : offsets_dim b (benchmark_offsets dim)) by apply benchmark_dim.
  assert (Hg := linear_grid ROW_MAJOR (is_points lg sp) Hn Hpts).
  destruct (stencil_matrix_ok Hlo Hn Hd Hm lg Hg) as [M1 M2].
  destruct (@benchmark_set_up _ lg sol sol1 rhs rhs1 m st sp pt Hv Hnd M1 M2) as [pl0 Hs].
  assert (HL : (1 <= INR L)%R) by (apply (le_INR 1 L); lia).
  destruct (@C85_stencil_rate ltT ROW_MAJOR b (benchmark_offsets dim) lg red true m sp 2 L (benchmark_calls sol sol1 rhs rhs1 m) st pl0 s
    (fun i => match i with 0 => f | _ => f1 end)) as (_ & n & x & K1 & K2 & K3); try assumption.
  - apply benchmark_symmetric.
  - apply benchmark_dominant.
  - apply benchmark_sides; lia.
  - lia.
  - lia.
  - reflexivity.
  - intros v Hin. apply Hv. exact Hin.
  - reflexivity.
  - intros i v Hi. destruct i as [|[|i]]; cbn in Hi; [injection Hi as <-; exact S0|injection Hi as <-; exact S1|destruct i; discriminate].
  - intros i v Hi. destruct i as [|[|i]]; cbn in Hi; [injection Hi as <-; exact R0|injection Hi as <-; exact R1|destruct i; discriminate].
  - exists pl0, n, (fun j => x j 0), (fun j => x j 1). split; [apply Hs|]. split; [exact K1|]. split; [intros p Hp; split; [apply (K2 0 p)|apply (K2 1 p)]; (lia || exact Hp)|].
    intros j Hj. destruct (K3 j Hj) as [J1 J2]. split; [exact J1|]. intros c st' s' He. destruct (J2 c st' s' He) as [J3 [J4 J5]].
    split; [apply (J3 0 sol eq_refl)|]. split; [apply (J3 1 sol1 eq_refl)|]. split; [exact J4|]. intros i g Hi. destruct (J5 i g Hi) as [v [V1 V2]]. exists v. split; [exact V1|].
    rewrite (benchmark_weights dim nx ny nz) in V2. fold b in V2.
    destruct (benchmark_dominant dim nx ny nz) as [C0 _]. fold b in C0. set (c0 := centre b (benchmark_offsets dim)) in *.
    replace (c0 - c0 + c0 / (2 * (INR L * INR L)))%R with (c0 / (2 * (INR L * INR L)))%R in V2 by ring.
    rewrite (grid_factor C0 HL) in V2. replace (4 * (2 * c0 / (c0 / (2 * (INR L * INR L)))))%R with (16 * (INR L * INR L))%R in V2 by (field; lra).
    cbn [seq] in V2. rewrite !Rsum_cons, Rsum_nil in V2. rewrite Rplus_0_r in V2. exact V2.
Qed.

(** The hypotheses are met: C62_example has a creator run, vectors and a Legion for the 1-D stencil on two points; it is
    dominant with sides of at most 2 points, its Rayleigh quotients lie between 1/4 and 4 (the eigenvalues are 1 and 3) and
    the factor is 3/5. *)
Example C85_example :
  let b := benchmark_box 1 2 1 1 in
  sides_at_most b 2 /\ dominant_stencil b (benchmark_offsets 1) /\ symmetric_stencil b (benchmark_offsets 1) /\
  (centre b (benchmark_offsets 1) = 2)%R /\ (off_centre_weight (benchmark_offsets 1) = 2)%R /\
  (cg_factor (2 - 2 + 2 / (2 * (INR 2 * INR 2))) (2 * 2) = 3 / 5)%R.
Proof.
  cbn zeta. split; [apply benchmark_sides; cbn; lia|]. split; [apply benchmark_dominant|]. split; [apply benchmark_symmetric|].
  assert (C : (centre (benchmark_box 1 2 1 1) (benchmark_offsets 1) = 2)%R).
  { rewrite centre_sum by apply benchmark_dim. unfold benchmark_offsets. rewrite !Rsum_map. cbn [benchmark_numerators]. rewrite !Rsum_cons, !Rsum_nil. cbn [fst snd is_origin forallb Z.eqb andb benchmark_denominator Nat.leb]. lra. }
  split; [exact C|]. split; [rewrite (benchmark_weights 1 2 1 1); exact C|].
  replace (2 - 2 + 2 / (2 * (INR 2 * INR 2)))%R with (2 / (2 * (INR 2 * INR 2)))%R by ring. rewrite grid_factor by (cbn; lra). cbn. lra.
Qed.
