(** PropsFloat: properties C65 - C67 (rounding errors of the float and double instantiations of the library). *)
From Coq Require Import Reals Lra Lia ZArith.
From Coq Require Import Floats.SpecFloat.
From Verif Require Import Base Index Outcome Sched Async Arith Launch Vector VectorFacts LaunchFacts Builder BuilderFacts Exec ExactSum Matrix MatrixSpec MatrixFacts MatvecFacts PropsVector PropsMatrix Float FloatSum.
Set Implicit Arguments.
Local Open Scope R_scope.

(** an IEEE format: C++ float is (24, 128), C++ double is (53, 1024) *)
Definition format (p e : Z) : Prop := (0 < p < e)%Z.
Lemma float_format_ok : format 24 128. Proof. split; reflexivity. Qed.
Lemma double_format_ok : format 53 1024. Proof. split; reflexivity. Qed.
(** the entries of [v] are bit patterns of the format; they are numbers (no infinity, no NaN) *)
Definition floats (p e : Z) (lg : legion) (s : store loc spec_float) (v : pvec) : Prop := forall q, In q (is_points lg (pv_space v)) -> is_float p e (s (at_point v q)).
Definition numbers (lg : legion) (s : store loc spec_float) (v : pvec) : Prop := forall q, In q (is_points lg (pv_space v)) -> is_number (s (at_point v q)).
(** the product of two entries as a real number *)
Definition product (s : store loc spec_float) (v w : pvec) (q : point) : R := fvalue (s (at_point v q)) * fvalue (s (at_point w q)).

(** ** The bound in the classical form: (1+u)^n - 1 <= n u / (1 - n u) *)
Theorem C65_gamma_classical : forall p n, (0 < p)%Z -> INR n * unit_roundoff p < 1 -> gamma p n <= INR n * unit_roundoff p / (1 - INR n * unit_roundoff p).
Proof.
  intros p n Hp Hn. destruct (u_pos Hp) as [U1 U2]. set (u := unit_roundoff p) in *. unfold gamma. fold u.
  assert (G : (1 + u) ^ n * (1 - INR n * u) <= 1).
  { clear Hn. induction n as [|n IH]; [cbn [pow INR]; lra|]. cbn [pow]. rewrite S_INR. pose proof (pos_INR n).
    assert (1 <= (1 + u) ^ n) by (apply pow_R1_Rle; lra).
    assert (X : (1 + u) * (1 + u) ^ n * (1 - (INR n + 1) * u) = (1 + u) ^ n * (1 - INR n * u) - (1 + u) ^ n * ((INR n + 1) * (u * u))) by ring. rewrite X.
    assert (0 <= (1 + u) ^ n * ((INR n + 1) * (u * u))) by (apply Rmult_le_pos; [lra|]; apply Rmult_le_pos; [lra|]; apply Rmult_le_pos; lra). lra. }
  assert (D : 0 < 1 - INR n * u) by lra. apply Rmult_le_reg_r with (1 - INR n * u); [exact D|].
  replace (INR n * u / (1 - INR n * u) * (1 - INR n * u)) with (INR n * u) by (field; lra). lra.
Qed.

(** ** C65.  The dot product *)
Lemma concat_products (f : point -> R) ps : concat (map (map f) ps) = map f (concat ps).
Proof. symmetry. apply concat_map. Qed.
Lemma partial_dot_approx p e (N : Prop) s v w piece : format p e -> (forall q, In q piece -> is_float p e (s (at_point v q)) /\ is_float p e (s (at_point w q)) /\
    (N -> is_number (s (at_point v q)) /\ is_number (s (at_point w q)))) ->
  approx p e N (map (product s v w) piece) (partial_dot (ieee p e) s v w piece).
Proof.
  intros [Hp He] H. unfold partial_dot. pose proof (@dot_loop_approx p e Hp He N (map (fun q => (s (at_point v q), s (at_point w q))) piece) [] (S754_zero false) (@approx_zero p e Hp N false)) as D.
  rewrite map_map in D. cbn [app fst snd] in D. change (map (fun x => fvalue (s (at_point v x)) * fvalue (s (at_point w x))) piece) with (map (product s v w) piece) in D.
  rewrite flat_map_concat_map, map_map, <- flat_map_concat_map in D. cbn [fst snd] in D. apply D. intros xy Hxy. apply in_map_iff in Hxy. destruct Hxy as [q [<- Hq]]. exact (H q Hq).
Qed.
Lemma dot_approx p e (N : Prop) (lg : legion) red v w n lns s s' : format p e ->
  legion_ok lg -> legal_reduction (ieee p e) red -> constructed lg v -> dot (ieee p e) lg red v w n = Ok lns -> launches_end lns s s' ->
  floats p e lg s v -> floats p e lg s w -> (N -> numbers lg s v /\ numbers lg s w) ->
  approx p e N (map (product s v w) (is_points lg (pv_space v))) (s' (LFut n)).
Proof.
  intros Hf Hlg Hred Hc H He Fv Fw HN. rewrite (dot_future_any _ _ _ _ _ _ H He). destruct Hf as [Hp Hpe]. assert (Hl : same_layout v w = true) by (apply oassert_ok in H; apply H).
  pose proof (same_layout_space _ _ Hl) as Hsp. pose proof (constructed_perm Hlg Hc) as Pm.
  eapply approx_perm; [apply Permutation_map; exact Pm|]. rewrite <- concat_products. eapply reduces_approx; [exact Hp|exact Hpe|apply Hred|].
  assert (In_piece : forall piece q, In piece (pieces lg v) -> In q piece -> In q (is_points lg (pv_space v))) by (intros piece q H1 H2; eapply Permutation_in; [exact Pm|]; apply in_concat; exists piece; split; assumption).
  clear Pm. induction (pieces lg v) as [|piece ps IH]; cbn [map]; constructor.
  - apply partial_dot_approx; [split; assumption|]. intros q Hq. assert (Hin := In_piece piece q (or_introl eq_refl) Hq). split; [apply Fv; exact Hin|]. assert (Hin' := Hin). rewrite Hsp in Hin'. split; [apply Fw; exact Hin'|].
    intros Hn. destruct (HN Hn) as [H1 H2]. split; [apply H1; exact Hin|apply H2; exact Hin'].
  - apply IH. intros piece' q H1 H2. eapply In_piece; [right; exact H1|exact H2].
Qed.
Lemma Rsum_map_id (X : Type) (f : X -> R) (g : R -> R) l : Rsum g (map f l) = Rsum (fun x => g (f x)) l.
Proof. induction l as [|x l IH]; cbn [map]; rewrite ?Rsum_nil, ?Rsum_cons; [reflexivity|]. rewrite IH. reflexivity. Qed.

(** For every partition, schedule and reduction order: a finite result is within the standard bound of the exact dot
    product; the result is a bit pattern of the format. *)
Theorem C65_dot_rounding_error : forall (p e : Z) (lg : legion) (red : nat -> list spec_float -> spec_float) v w n lns s s',
  format p e -> legion_ok lg -> legal_reduction (ieee p e) red -> constructed lg v ->
  dot (ieee p e) lg red v w n = Ok lns -> launches_end lns s s' -> floats p e lg s v -> floats p e lg s w ->
  is_float p e (s' (LFut n)) /\
  (is_number (s' (LFut n)) ->
   Rabs (fvalue (s' (LFut n)) - Rsum (product s v w) (is_points lg (pv_space v))) <=
   sum_error p e (length (is_points lg (pv_space v))) (Rsum (fun q => Rabs (product s v w q)) (is_points lg (pv_space v)))).
Proof.
  intros p e lg red v w n lns s s' Hf Hlg Hred Hc H He Fv Fw.
  destruct (@dot_approx p e False lg red v w n lns s s' Hf Hlg Hred Hc H He Fv Fw) as (F & E & _); [tauto|]. split; [exact F|]. intros Hn. specialize (E Hn).
  rewrite map_length, !Rsum_map_id in E. exact E.
Qed.
(** If all entries are numbers and sum |x_q y_q| stays clear of the overflow threshold, the result is a number. *)
Theorem C65_dot_no_overflow : forall (p e : Z) (lg : legion) (red : nat -> list spec_float -> spec_float) v w n lns s s',
  format p e -> legion_ok lg -> legal_reduction (ieee p e) red -> constructed lg v ->
  dot (ieee p e) lg red v w n = Ok lns -> launches_end lns s s' -> floats p e lg s v -> floats p e lg s w -> numbers lg s v -> numbers lg s w ->
  (let m := Rsum (fun q => Rabs (product s v w q)) (is_points lg (pv_space v)) in m + sum_error p e (length (is_points lg (pv_space v))) m <= largest e) ->
  is_number (s' (LFut n)).
Proof.
  intros p e lg red v w n lns s s' Hf Hlg Hred Hc H He Fv Fw Nv Nw Hm.
  destruct (@dot_approx p e True lg red v w n lns s s' Hf Hlg Hred Hc H He Fv Fw) as (_ & _ & F); [tauto|]. apply F; [exact I|]. unfold FloatSum.fits. rewrite map_length, !Rsum_map_id. exact Hm.
Qed.
(** Hence two runs of the same dot product - other partition of the vectors, other reduction order, other schedule - differ by at most twice the bound. *)
Theorem C65_dot_runs_differ_little : forall (p e : Z) (lg : legion) r1 r2 v w v' w' n n' lns lns' s s1 s2,
  format p e -> legion_ok lg -> legal_reduction (ieee p e) r1 -> legal_reduction (ieee p e) r2 -> constructed lg v -> constructed lg v' -> same_data v v' -> same_data w w' ->
  dot (ieee p e) lg r1 v w n = Ok lns -> dot (ieee p e) lg r2 v' w' n' = Ok lns' -> launches_end lns s s1 -> launches_end lns' s s2 ->
  floats p e lg s v -> floats p e lg s w -> is_number (s1 (LFut n)) -> is_number (s2 (LFut n')) ->
  Rabs (fvalue (s1 (LFut n)) - fvalue (s2 (LFut n'))) <=
  2 * sum_error p e (length (is_points lg (pv_space v))) (Rsum (fun q => Rabs (product s v w q)) (is_points lg (pv_space v))).
Proof.
  intros p e lg r1 r2 v w v' w' n n' lns lns' s s1 s2 Hf Hlg R1 R2 Hc Hc' (V1 & V2 & V3) (W1 & W2 & W3) H H' He He' Fv Fw N1 N2.
  assert (Ev : forall q, at_point v' q = at_point v q) by (intros q; unfold at_point; congruence). assert (Ew : forall q, at_point w' q = at_point w q) by (intros q; unfold at_point; congruence).
  destruct (@C65_dot_rounding_error p e lg r1 v w n lns s s1 Hf Hlg R1 Hc H He Fv Fw) as [_ B1].
  assert (Fv' : floats p e lg s v') by (intros q Hq; rewrite Ev; apply Fv; rewrite V3; exact Hq). assert (Fw' : floats p e lg s w') by (intros q Hq; rewrite Ew; apply Fw; rewrite W3; exact Hq).
  destruct (@C65_dot_rounding_error p e lg r2 v' w' n' lns' s s2 Hf Hlg R2 Hc' H' He' Fv' Fw') as [_ B2]. specialize (B1 N1). specialize (B2 N2).
  rewrite <- V3 in B2. rewrite (@Rsum_ext _ (product s v' w') (product s v w)) in B2 by (intros q _; unfold product; rewrite Ev, Ew; reflexivity).
  rewrite (@Rsum_ext _ (fun q => Rabs (product s v' w' q)) (fun q => Rabs (product s v w q))) in B2 by (intros q _; unfold product; rewrite Ev, Ew; reflexivity).
  set (t := Rsum (product s v w) (is_points lg (pv_space v))) in *. replace (fvalue (s1 (LFut n)) - fvalue (s2 (LFut n'))) with ((fvalue (s1 (LFut n)) - t) - (fvalue (s2 (LFut n')) - t)) by ring.
  unfold Rminus at 1. eapply Rle_trans; [apply Rabs_triang|]. rewrite Rabs_Ropp. lra.
Qed.

(** ** C66.  Matrix times vector *)
Definition product_at {T} (m : matrix T) (val : T -> R) (x : point -> T) (kp : point) : R := val (value m kp) * val (x (column m kp)).
Lemma matvec_approx p e (N : Prop) (lg : legion) (m : matrix spec_float) (dst src : pvec) ln s s' q ts : format p e ->
  legion_ok lg -> constructed lg dst -> matrix_ok lg m -> derived_matvec (ieee p e) lg m dst src = Ok ln -> launches_end [ln] s s' -> In q (is_points lg (pv_space dst)) ->
  floats p e lg s src -> (forall kp, In kp (positions m) -> is_float p e (value m kp)) -> (N -> numbers lg s src /\ forall kp, In kp (positions m) -> is_number (value m kp)) ->
  approx p e N ts (s (at_point dst q)) ->
  approx p e N (ts ++ map (product_at m fvalue (fun c => s (at_point src c))) (row_entries lg m (pv_space src) q)) (s' (at_point dst q)).
Proof.
  intros [Hp Hpe] Hlg Hc Hok H He Hq Fx Fm HN Ha. destruct (@derived_effect _ (ieee p e) lg Hlg m dst src ln s s' Hc Hok H He) as [U _]. rewrite (U q Hq). clear U.
  assert (In_row : forall kp, In kp (row_entries lg m (pv_space src) q) -> In kp (positions m) /\ In (column m kp) (is_points lg (pv_space src))).
  { intros kp Hk. unfold row_entries in Hk. apply filter_In in Hk. destruct Hk as [H1 H2]. apply andb_true_iff in H2. destruct H2 as [_ H2]. apply mem_spec in H2. split; assumption. }
  revert In_row. generalize (row_entries lg m (pv_space src) q) as kps. intros kps In_row.
  pose proof (@accumulate_approx p e Hp Hpe N (map (fun kp => (value m kp, s (at_point src (column m kp)))) kps) ts (s (at_point dst q)) Ha) as D.
  rewrite map_map in D. cbn [fst snd] in D. unfold product_at, add_products.
  assert (E : forall l y, fold_left (fun acc kp => aadd (ieee p e) acc (amul (ieee p e) (value m kp) (s (at_point src (column m kp))))) l y =
     fold_left (fun a xy => aadd (ieee p e) a (amul (ieee p e) (fst xy) (snd xy))) (map (fun kp => (value m kp, s (at_point src (column m kp)))) l) y).
  { intros l. induction l as [|kp l IH]; intros y; [reflexivity|]. cbn [fold_left map fst snd]. apply IH. }
  rewrite E. apply D. intros xy Hxy. apply in_map_iff in Hxy. destruct Hxy as [kp [<- Hk]]. destruct (In_row kp Hk) as [H1 H2]. cbn [fst snd]. split; [apply Fm; exact H1|]. split; [apply Fx; exact H2|].
  intros Hn. destruct (HN Hn) as [N1 N2]. split; [apply N2; exact H1|apply N1; exact H2].
Qed.
(** [terms m s src dst q] - what row [q] of the product adds up: the former entry of [dst] and one product per stored entry *)
Definition row_terms (lg : legion) (m : matrix spec_float) (s : store loc spec_float) (dst src : pvec) (q : point) : list R :=
  fvalue (s (at_point dst q)) :: map (product_at m fvalue (fun c => s (at_point src c))) (row_entries lg m (pv_space src) q).
Theorem C66_matvec_rounding_error : forall (p e : Z) (lg : legion) (m : matrix spec_float) (dst src : pvec) ln s s',
  format p e -> legion_ok lg -> constructed lg dst -> matrix_ok lg m -> derived_matvec (ieee p e) lg m dst src = Ok ln -> launches_end [ln] s s' ->
  floats p e lg s dst -> floats p e lg s src -> (forall kp, In kp (positions m) -> is_float p e (value m kp)) ->
  floats p e lg s' dst /\
  (forall q, In q (is_points lg (pv_space dst)) -> let ts := row_terms lg m s dst src q in
     (is_number (s' (at_point dst q)) -> Rabs (fvalue (s' (at_point dst q)) - Rsum (fun t => t) ts) <= sum_error p e (length ts) (Rsum Rabs ts)) /\
     (numbers lg s dst -> numbers lg s src -> (forall kp, In kp (positions m) -> is_number (value m kp)) ->
        Rsum Rabs ts + sum_error p e (length ts) (Rsum Rabs ts) <= largest e -> is_number (s' (at_point dst q)))).
Proof.
  intros p e lg m dst src ln s s' Hf Hlg Hc Hok H He Fy Fx Fm.
  assert (G : forall q, In q (is_points lg (pv_space dst)) ->
    approx p e (numbers lg s dst /\ numbers lg s src /\ forall kp, In kp (positions m) -> is_number (value m kp)) (row_terms lg m s dst src q) (s' (at_point dst q))).
  { intros q Hq. unfold row_terms. change (fvalue (s (at_point dst q)) :: ?l) with ([fvalue (s (at_point dst q))] ++ l).
    eapply matvec_approx; try eassumption; [tauto|]. destruct Hf as [Hp Hpe]. apply approx_value; [exact Hp|apply Fy; exact Hq|]. intros (N1 & _). apply N1; exact Hq. }
  split; [intros q Hq; apply (G q Hq)|]. intros q Hq ts. destruct (G q Hq) as (_ & E & F). split; [exact E|]. intros N1 N2 N3 Hm. apply F; [tauto|exact Hm].
Qed.
(** The solvers' product A*x starts from a zero-filled destination: one term less. *)
Theorem C66_product_rounding_error : forall (p e : Z) (lg : legion) (m : matrix spec_float) (dst src : pvec) ln s s',
  format p e -> legion_ok lg -> constructed lg dst -> matrix_ok lg m -> derived_matvec (ieee p e) lg m dst src = Ok ln -> launches_end [ln] s s' ->
  (forall q, In q (is_points lg (pv_space dst)) -> s (at_point dst q) = a0 (ieee p e)) -> floats p e lg s src -> (forall kp, In kp (positions m) -> is_float p e (value m kp)) ->
  floats p e lg s' dst /\
  (forall q, In q (is_points lg (pv_space dst)) -> let kps := row_entries lg m (pv_space src) q in let t := product_at m fvalue (fun c => s (at_point src c)) in
     (is_number (s' (at_point dst q)) -> Rabs (fvalue (s' (at_point dst q)) - Rsum t kps) <= sum_error p e (length kps) (Rsum (fun kp => Rabs (t kp)) kps)) /\
     (numbers lg s src -> (forall kp, In kp (positions m) -> is_number (value m kp)) ->
        Rsum (fun kp => Rabs (t kp)) kps + sum_error p e (length kps) (Rsum (fun kp => Rabs (t kp)) kps) <= largest e -> is_number (s' (at_point dst q)))).
Proof.
  intros p e lg m dst src ln s s' Hf Hlg Hc Hok H He Fy Fx Fm.
  assert (G : forall q, In q (is_points lg (pv_space dst)) ->
    approx p e (numbers lg s src /\ forall kp, In kp (positions m) -> is_number (value m kp)) (map (product_at m fvalue (fun c => s (at_point src c))) (row_entries lg m (pv_space src) q)) (s' (at_point dst q))).
  { intros q Hq. change (map ?f ?l) with ([] ++ map f l) at 1.
    eapply matvec_approx; try eassumption; [tauto|]. destruct Hf as [Hp Hpe]. rewrite (Fy q Hq). apply approx_zero; exact Hp. }
  split; [intros q Hq; apply (G q Hq)|]. intros q Hq kps t. destruct (G q Hq) as (_ & E & F). unfold FloatSum.fits in F. rewrite map_length in E, F. rewrite !Rsum_map_id in E. rewrite !Rsum_map_id in F. split; [exact E|]. intros N2 N3 Hm. apply F; [tauto|exact Hm].
Qed.

(** ** C67.  scal, axpy and xpay round once per entry (std::fma), and copies and fills do not round at all *)
(** the exact value [op] should give entry [q], with coefficient [alpha] *)
Definition exact_entry (s : store loc spec_float) (y : pvec) (q : point) (alpha : spec_float) (op : vop spec_float) : R :=
  match op with
  | Fill c => fvalue c
  | FillFuture f => fvalue (s (LFut f))
  | ZeroFill => 0
  | Copy x => fvalue (s (at_point x q))
  | Scal _ => fvalue alpha * fvalue (s (at_point y q))
  | Axpy _ x => fvalue (s (at_point y q)) + fvalue alpha * fvalue (s (at_point x q))
  | Xpay _ x => fvalue (s (at_point x q)) + fvalue alpha * fvalue (s (at_point y q))
  end.
Definition rounds (op : vop spec_float) : bool := match op with Scal _ | Axpy _ _ | Xpay _ _ => true | _ => false end.
Lemma coefficient_float p e vs alpha : format p e -> Forall (is_float p e) vs -> coefficient (ieee p e) vs alpha -> is_float p e alpha.
Proof.
  intros [Hp He] F C. destruct C; repeat match goal with H : Forall _ (_ :: _) |- _ => inversion H; subst; clear H end; cbn [ieee a1 adiv amul]; try assumption;
    [apply normalize_float; assumption|..]; repeat (first [apply div_float|apply mul_float]; try assumption).
Qed.
Theorem C67_update_rounds_once : forall (p e : Z) (lg : legion) (y : pvec) (op : vop spec_float) ln s s' (fs : list nat),
  format p e -> legion_ok lg -> constructed lg y -> call (ieee p e) lg y op = Ok ln -> launches_end [ln] s s' ->
  floats p e lg s y -> (forall x, operand op = Some x -> floats p e lg s x) -> (forall fs', factors_of op = Some fs' -> fs' = fs) -> (forall f, In f fs -> is_float p e (s (LFut f))) ->
  exists alpha, (factors_of op = Some fs -> coefficient (ieee p e) (map (fun f => s (LFut f)) fs) alpha) /\
    forall q, In q (is_points lg (pv_space y)) -> (rounds op = false -> fvalue (s' (at_point y q)) = exact_entry s y q alpha op) /\
      (rounds op = true -> is_float p e (s' (at_point y q)) /\
        (is_number (s' (at_point y q)) -> Rabs (fvalue (s' (at_point y q)) - exact_entry s y q alpha op) <= unit_roundoff p * Rabs (exact_entry s y q alpha op) + tiny p e)).
Proof.
  intros p e lg y op ln s s' fs Hf Hlg Hc H He Fy Fx Hfs Ff. destruct (@call_effect _ (ieee p e) lg Hlg y op ln Hc H s s' He) as [U _].
  assert (Fs : Forall (is_float p e) (map (fun f => s (LFut f)) fs)) by (apply Forall_forall; intros z Hz; apply in_map_iff in Hz; destruct Hz as [f [<- Hin]]; apply Ff; exact Hin).
  assert (Ca : forall fs', factors_of op = Some fs' -> exists alpha, coefficient (ieee p e) (map (fun f => s (LFut f)) fs) alpha).
  { intros fs' E. destruct (@C03_step_factors _ (ieee p e) lg y op fs' Hlg Hc E) as (_ & _ & K). destruct (K ln s s' H He) as [al [Ha _]]. rewrite (Hfs fs' E) in Ha. exists al. exact Ha. }
  assert (lay : forall x, operand op = Some x -> pv_space x = pv_space y).
  { intros x Ex. destruct op; try discriminate; injection Ex as ->; cbn [call] in H; (unfold copy, axpy, xpay in H; apply oassert_ok in H; destruct H as [Hl _]; symmetry; apply same_layout_space; first [exact Hl|apply andb_true_iff in Hl; apply Hl]). }
  pose proof Hf as [Hp Hpe].
  assert (Z : fvalue (a0 (ieee p e)) = 0) by reflexivity.
  destruct op as [c|f| |x|fs0|fs0 x|fs0 x]; cbn [rounds operand factors_of] in *;
    try (exists (S754_zero false); split; [discriminate|]; intros q Hq; split; [intros _|discriminate]; specialize (U q Hq); revert U; generalize (s' (at_point y q)); intros z U; inversion U; subst; cbn [exact_entry]; reflexivity);
    destruct (Ca _ eq_refl) as [al Ha]; exists al; rewrite (Hfs _ eq_refl) in *; (split; [intros _; exact Ha|]); intros q Hq; (split; [discriminate|]); intros _; specialize (U q Hq); revert U; generalize (s' (at_point y q)); intros z U;
    inversion U as [| | | |? al' Ha'|? ? al' Ha'|? ? al' Ha']; subst; rewrite <- (coefficient_fun Ha Ha') in *; pose proof (coefficient_float Hf Fs Ha) as Fa; cbn [exact_entry]; clear U.
  - cbn [ieee amul]. split; [apply mul_float; try assumption; apply Fy; exact Hq|]. intros Hn. destruct (mul_value Hp Hpe Fa (Fy q Hq) Hn) as (_ & _ & E). rewrite E. apply rnd_error; assumption.
  - cbn [ieee afma]. assert (Hx : is_float p e (s (at_point x q))) by (apply (Fx x eq_refl); rewrite (lay x eq_refl); exact Hq).
    split; [apply fma_float; try assumption; apply Fy; exact Hq|]. intros Hn. destruct (fma_value Hp Hpe Fa Hx (Fy q Hq) Hn) as (_ & _ & _ & E). rewrite E, Rplus_comm. apply rnd_error; assumption.
  - cbn [ieee afma]. assert (Hx : is_float p e (s (at_point x q))) by (apply (Fx x eq_refl); rewrite (lay x eq_refl); exact Hq).
    split; [apply fma_float; try assumption; apply Fy; exact Hq|]. intros Hn. destruct (fma_value Hp Hpe Fa (Fy q Hq) Hx Hn) as (_ & _ & _ & E). rewrite E, Rplus_comm. apply rnd_error; assumption.
Qed.

(** ** Examples, in double *)
Lemma error_small n m : (n <= 10)%nat -> 0 <= m <= 1000 -> m + sum_error 53 1024 n m <= largest 1024.
Proof.
  intros Hn Hm. destruct (@u_pos 53 eq_refl) as [U1 U2]. pose proof (tiny_pos 53 1024) as T1.
  assert (T2 : tiny 53 1024 <= 1). { unfold tiny. rewrite powerRZ_bpow. change 1 with (Raux.bpow Zaux.radix2 0). apply Raux.bpow_le. lia. }
  assert (P : 1 <= (1 + unit_roundoff 53) ^ n <= 1024).
  { split; [apply pow_R1_Rle; lra|]. apply Rle_trans with (2 ^ n); [apply pow_incr; lra|]. apply Rle_trans with (2 ^ 10); [apply Rle_pow; [lra|exact Hn]|]. lra. }
  assert (N : 0 <= INR n <= 10) by (split; [apply pos_INR|]; replace 10 with (INR 10) by (cbn [INR]; lra); apply le_INR; exact Hn).
  assert (L : 16777216 * 16777216 <= largest 1024).
  { unfold largest. rewrite powerRZ_bpow. apply Rle_trans with (Raux.bpow Zaux.radix2 48); [|apply Raux.bpow_le; lia]. cbn. lra. }
  unfold sum_error, gamma. set (w := (1 + unit_roundoff 53) ^ n) in *. set (t := tiny 53 1024) in *.
  assert ((w - 1) * m <= 1023 * 1000) by (apply Rmult_le_compat; lra).
  assert (INR n * w * t <= 10 * 1024 * 1) by (apply Rmult_le_compat; [apply Rmult_le_pos; lra|lra|apply Rmult_le_compat; lra|exact T2]). lra.
Qed.
Definition s6 : store loc f64 := fun l => match l with LVec 10 _ [i; j] => f64_of_Z (3 * i + j + 1) | LVec 11 _ _ => f64_of_Zexp 7205759403792794 (-56) (* 0.1 *) | _ => f64_zero end.
Lemma grid6_cases (P : point -> Prop) : Forall P grid6 -> forall q, In q (is_points lg6 (pv_space y6)) -> P q.
Proof. intros H q Hq. eapply Forall_forall; [exact H|exact Hq]. Qed.
Lemma f64_small z : (0 <= z <= 6)%Z -> fvalue (f64_of_Z z) = IZR z.
Proof. intros H. assert (C : (z = 0 \/ z = 1 \/ z = 2 \/ z = 3 \/ z = 4 \/ z = 5 \/ z = 6)%Z) by lia. decompose [or] C; subst z; vm_compute; lra. Qed.
Example C65_example : (* <(1..6), (0.1, 0.1, ...)> in double *)
  floats 53 1024 lg6 s6 y6 /\ floats 53 1024 lg6 s6 x6 /\ numbers lg6 s6 y6 /\ numbers lg6 s6 x6 /\
  (forall red n lns s', legal_reduction binary64 red -> dot binary64 lg6 red y6 x6 n = Ok lns -> launches_end lns s6 s' -> is_number (s' (LFut n))) /\
  (exists lns, dot binary64 lg6 (fun _ l => fold_left (aadd binary64) l (a0 binary64)) y6 x6 0 = Ok lns).
Proof.
  assert (F1 : floats 53 1024 lg6 s6 y6) by (unfold floats; apply grid6_cases; repeat constructor).
  assert (F2 : floats 53 1024 lg6 s6 x6) by (unfold floats; apply (@grid6_cases (fun q => is_float 53 1024 (s6 (at_point x6 q)))); repeat constructor).
  assert (N1 : numbers lg6 s6 y6) by (unfold numbers; apply grid6_cases; repeat constructor).
  assert (N2 : numbers lg6 s6 x6) by (unfold numbers; apply (@grid6_cases (fun q => is_number (s6 (at_point x6 q)))); repeat constructor).
  split; [exact F1|]. split; [exact F2|]. split; [exact N1|]. split; [exact N2|]. split; [|eexists; reflexivity].
  intros red n lns s' Hred H He. refine (@C65_dot_no_overflow 53 1024 lg6 red y6 x6 n lns s6 s' double_format_ok lg6_ok Hred _ H He F1 F2 N1 N2 _); [exists 2%nat, 10%nat, 0%nat; reflexivity|].
  cbv zeta. apply error_small; [cbn; lia|]. split; [apply Rsum_nonneg; intros; apply Rabs_pos|].
  assert (V : 0 <= fvalue (f64_of_Zexp 7205759403792794 (-56)) <= 1). 
  { assert (E : f64_of_Zexp 7205759403792794 (-56) = S754_finite false 7205759403792794 (-56)) by (vm_compute; reflexivity). rewrite E. cbn [fvalue]. rewrite powerRZ_bpow.
    assert (B : Raux.bpow Zaux.radix2 (-56) = / 72057594037927936) by (cbn; reflexivity). rewrite B. split; lra. }
  apply Rle_trans with (Rsum (fun _ => 6) (is_points lg6 (pv_space y6))).
  - apply Rsum_le. apply (@grid6_cases (fun q => Rabs (product s6 y6 x6 q) <= 6)).
    assert (G : forall z, (0 <= z <= 6)%Z -> Rabs (fvalue (f64_of_Z z) * fvalue (f64_of_Zexp 7205759403792794 (-56))) <= 6).
    { intros z Hz. rewrite (f64_small Hz). assert (Z0 : 0 <= IZR z <= 6) by (split; [apply IZR_le|apply IZR_le]; lia). rewrite Rabs_pos_eq by (apply Rmult_le_pos; lra). nra. }
    repeat (constructor; [apply G; cbn; lia|]). constructor.
  - change (is_points lg6 (pv_space y6)) with grid6. unfold grid6. rewrite !Rsum_cons, Rsum_nil. lra.
Qed.
Definition d2_csr : csr f64 := mk_csr [[0];[1];[2];[3]]%Z
  (fun kp => if mem kp [[0];[2]]%Z then [0]%Z else [1]%Z)
  (fun kp => if mem kp [[0];[3]]%Z then f64_of_Z 2 else f64_of_Z (-1)) 1
  (fun r => if mem r [[0]]%Z then mk_rect [0]%Z [1]%Z else mk_rect [2]%Z [3]%Z).
Example C66_example : let s := fun l : loc => match l with LVec 11 _ [i]%Z => f64_of_Z (i + 1) | LVec 10 _ _ => f64_of_Z 3 | _ => f64_zero end in
  constructed lg2 (v2 3 10) /\ matrix_ok lg2 (CSR d2_csr) /\ (exists ln, derived_matvec binary64 lg2 (CSR d2_csr) (v2 3 10) (v2 3 11) = Ok ln) /\
  floats 53 1024 lg2 s (v2 3 10) /\ floats 53 1024 lg2 s (v2 3 11) /\ (forall kp, In kp (positions (CSR d2_csr)) -> is_float 53 1024 (value (CSR d2_csr) kp)) /\
  row_terms lg2 (CSR d2_csr) s (v2 3 10) (v2 3 11) [1]%Z = [fvalue (f64_of_Z 3); fvalue (f64_of_Z (-1)) * fvalue (f64_of_Z 1); fvalue (f64_of_Z 2) * fvalue (f64_of_Z 2)] /\
  forall ln s', derived_matvec binary64 lg2 (CSR d2_csr) (v2 3 10) (v2 3 11) = Ok ln -> launches_end [ln] s s' -> s' (at_point (v2 3 10) [1]%Z) = f64_of_Z 6.
Proof.
  assert (Hdis : rows_disjoint lg2 d2_csr).
  { intros kp r1 r2 Hk H1 H2. cbn in Hk, H1, H2. intros C1 C2. destruct H1 as [<-|[<-|[]]], H2 as [<-|[<-|[]]]; try reflexivity; exfalso; destruct Hk as [<-|[<-|[<-|[<-|[]]]]]; cbn in C1, C2; discriminate. }
  assert (Hc : constructed lg2 (v2 3 10)) by (exists 3%nat, 10%nat, 0%nat; reflexivity).
  intros s. split; [exact Hc|]. split; [exact Hdis|]. split; [eexists; reflexivity|].
  split; [intros q Hq; cbn in Hq; destruct Hq as [<-|[<-|[]]]; reflexivity|]. split; [intros q Hq; cbn in Hq; destruct Hq as [<-|[<-|[]]]; reflexivity|].
  split; [intros kp Hk; cbn in Hk; destruct Hk as [<-|[<-|[<-|[<-|[]]]]]; reflexivity|]. split; [reflexivity|].
  intros ln s' H He. destruct (@derived_effect _ binary64 lg2 lg2_ok (CSR d2_csr) (v2 3 10) (v2 3 11) ln s s' Hc Hdis H He) as [U _]. rewrite (U [1]%Z) by (cbn; tauto). reflexivity.
Qed.
Example C67_example : (* y := y + (1/3) x in double: one rounding of the coefficient, one per entry *)
  (exists ln, call binary64 lg6 y6 (Axpy [0; 1]%nat x6) = Ok ln) /\
  forall ln s', let s := fun l : loc => match l with LFut O => f64_of_Z 1 | LFut _ => f64_of_Z 3 | _ => s6 l end in
    call binary64 lg6 y6 (Axpy [0; 1]%nat x6) = Ok ln -> launches_end [ln] s s' ->
    exists alpha, alpha = SFdiv 53 1024 (f64_of_Z 1) (f64_of_Z 3) /\ forall q, In q grid6 -> is_number (s' (at_point y6 q)) ->
      Rabs (fvalue (s' (at_point y6 q)) - (fvalue (s (at_point y6 q)) + fvalue alpha * fvalue (s (at_point x6 q)))) <=
      unit_roundoff 53 * Rabs (fvalue (s (at_point y6 q)) + fvalue alpha * fvalue (s (at_point x6 q))) + tiny 53 1024.
Proof.
  split; [eexists; reflexivity|]. intros ln s' s H He.
  assert (F1 : floats 53 1024 lg6 s y6) by (unfold floats; apply grid6_cases; repeat constructor).
  assert (F2 : floats 53 1024 lg6 s x6) by (unfold floats; apply (@grid6_cases (fun q => is_float 53 1024 (s (at_point x6 q)))); repeat constructor).
  destruct (@C67_update_rounds_once 53 1024 lg6 y6 (Axpy [0; 1]%nat x6) ln s s' [0; 1]%nat double_format_ok lg6_ok) as [al [Ha U]]; try assumption.
  - exists 2%nat, 10%nat, 0%nat. reflexivity.
  - intros x E. injection E as <-. exact F2.
  - intros fs' E. injection E as <-. reflexivity.
  - intros f [<-|[<-|[]]]; reflexivity.
  - exists al. specialize (Ha eq_refl). inversion Ha; subst. split; [reflexivity|]. intros q Hq. apply (U q Hq). reflexivity.
Qed.
