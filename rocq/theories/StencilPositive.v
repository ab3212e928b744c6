(** StencilPositive: a weakly diagonally dominant stencil, with zero outside a finite box, is positive definite. *)
From Coq Require Import Reals Lra.
From Verif Require Import Base Index IndexSpec IndexFacts Outcome Sched Async Arith Launch Vector PartitionSpec VectorFacts LaunchFacts Matrix MatrixSpec ExactSum LinAlg
  StencilSpec StencilSize StencilSizeFacts StencilFill StencilFillFacts StencilLaunch StencilCreate PropsStencil PropsConvolution.
Set Implicit Arguments.

(** ** Specification *)
(** the offset vector zero, in the dimension of the box *)
Definition origin (b : rect) : point := map (fun _ => 0%Z) (lo b).
Definition is_origin (v : point) : bool := forallb (fun z => z =? 0)%Z v.
(** sum of the absolute values of the entries at nonzero offsets *)
Definition off_centre_weight (offs : list (point * R)) : R := Rsum (fun oe => if is_origin (fst oe) then 0%R else Rabs (snd oe)) offs.
(** total entry at the zero offset *)
Definition centre (b : rect) (offs : list (point * R)) : R := coefficient offs (origin b).
Definition dominant_stencil (b : rect) (offs : list (point * R)) : Prop := (0 < centre b offs /\ off_centre_weight offs <= centre b offs)%R.
(** the convolution is a positive definite operator on the functions on the box *)
Definition positive_stencil (o : IndexOrder) (b : rect) (offs : list (point * R)) : Prop :=
  forall x, (exists p, in_box b p /\ x p <> 0%R) -> (0 < Rsum (fun p => x p * convolve b offs x p) (box_points o b))%R.

(** ** Sums *)
Lemma Rsum_le {P} (f g : P -> R) l : (forall p, In p l -> f p <= g p)%R -> (Rsum f l <= Rsum g l)%R.
Proof.
  induction l as [|a l IH]; intros H; rewrite ?Rsum_nil, ?Rsum_cons; [lra|]. assert (f a <= g a)%R by (apply H; left; reflexivity).
  assert (Rsum f l <= Rsum g l)%R by (apply IH; intros; apply H; right; assumption). lra.
Qed.
Lemma Rsum_incl_le {P} (f : P -> R) l l' : NoDup l -> incl l l' -> (forall p, In p l' -> 0 <= f p)%R -> (Rsum f l <= Rsum f l')%R.
Proof.
  revert l'. induction l as [|a l IH]; intros l' Hnd Hi Hf; [rewrite Rsum_nil; apply Rsum_nonneg; exact Hf|].
  inversion Hnd as [|? ? Ha Hnd']; subst. destruct (in_split a l' (Hi a (or_introl eq_refl))) as [l1 [l2 ->]].
  rewrite Rsum_cons, Rsum_app, Rsum_cons. assert (Rsum f l <= Rsum f (l1 ++ l2))%R; [|rewrite Rsum_app in *; lra].
  apply IH; [exact Hnd'| |].
  - intros q Hq. assert (H : In q (l1 ++ a :: l2)) by (apply Hi; right; exact Hq). rewrite in_app_iff in *. destruct H as [H|[->|H]]; tauto.
  - intros q Hq. apply Hf. rewrite in_app_iff in *. cbn. tauto.
Qed.

(** ** Shifts of the box *)
Lemma padd_inj p q v : length p = length v -> length q = length v -> padd p v = padd q v -> p = q.
Proof.
  revert q v. induction p as [|x p IH]; intros [|y q] [|z v] H1 H2 E; try discriminate; [reflexivity|]. injection H1 as H1. injection H2 as H2.
  cbn [padd] in E. injection E as E1 E2. f_equal; [lia|]. eapply IH; eassumption.
Qed.
Lemma is_origin_spec b v : length v = length (lo b) -> is_origin v = true <-> v = origin b.
Proof.
  unfold is_origin, origin. generalize (lo b) as l. intros l. revert l. induction v as [|x v IH]; intros [|y l] H; try discriminate; cbn; [tauto|].
  injection H as H. rewrite andb_true_iff, (IH l H), Z.eqb_eq. split; [intros [-> ->]; reflexivity|intros E; injection E as -> ->; auto].
Qed.
Lemma padd_origin b p : length p = length (lo b) -> padd p (origin b) = p.
Proof.
  unfold origin. generalize (lo b) as l. intros l. revert l. induction p as [|x p IH]; intros [|y l] H; try discriminate; cbn [map padd]; [reflexivity|].
  injection H as H. rewrite (IH l H). f_equal. lia.
Qed.
(** the [k]-fold shift *)
Fixpoint shift (v : point) (k : nat) (p : point) : point := match k with 0 => p | S k => padd (shift v k p) v end.
Lemma shift_nth v k p i : length p = length v -> i < length v -> nth i (shift v k p) 0%Z = (nth i p 0 + Z.of_nat k * nth i v 0)%Z /\ length (shift v k p) = length v.
Proof.
  intros Hl Hi. induction k as [|k [IH1 IH2]]; cbn [shift]; [split; [lia|exact Hl]|].
  assert (N : forall a c j, length a = length c -> nth j (padd a c) 0%Z = (nth j a 0 + nth j c 0)%Z).
  { clear. intros a. induction a as [|x a IH]; intros [|y c] j H; try discriminate; [destruct j; reflexivity|]. injection H as H. destruct j; cbn [padd nth]; [reflexivity|]. apply IH, H. }
  rewrite N by exact IH2. rewrite IH1. split; [lia|]. rewrite padd_length; [exact IH2|first [exact IH2|symmetry; exact IH2]].
Qed.
Lemma not_origin_nth v : is_origin v = false -> exists i, i < length v /\ nth i v 0%Z <> 0%Z.
Proof.
  unfold is_origin. induction v as [|x v IH]; cbn; [discriminate|]. destruct (Z.eqb_spec x 0) as [->|H]; cbn.
  - intros H. destruct (IH H) as [i [H1 H2]]. exists (S i). split; [lia|exact H2].
  - intros _. exists 0. split; [lia|exact H].
Qed.
Lemma shift_leaves b p v : in_box b p -> length v = length (lo b) -> is_origin v = false -> exists k, ~ in_box b (shift v k p).
Proof.
  intros Hp Hv Ho. destruct (not_origin_nth v Ho) as [i [Hi Hn]].
  assert (Lp : length p = length v) by (destruct Hp as [Hp _]; congruence).
  set (d := (Z.abs (nth i (lo b) 0) + Z.abs (nth i (hi b) 0) + Z.abs (nth i p 0) + 1)%Z). exists (Z.to_nat d).
  intros [_ [_ H]]. specialize (H i). destruct (shift_nth v (Z.to_nat d) p Lp Hi) as [E L]. rewrite E, L in H. specialize (H Hi).
  rewrite Z2Nat.id in H by (unfold d; lia). assert (D : (d <= Z.abs (d * nth i v 0))%Z) by (rewrite Z.abs_mul; unfold d in *; nia). unfold d in *. lia.
Qed.

(** ** The quadratic form *)
Section Quad.
Variable o : IndexOrder.
Variable b : rect.
Hypothesis Hwf : wf_box b.
Variable x : point -> R.
Let pts := box_points o b.
Let z := zero_outside b x.
Let S := Rsum (fun p => z p * z p)%R pts.
Let D v := Rsum (fun p => z p * z (padd p v))%R pts.

Lemma in_pts p : In p pts <-> in_box b p.
Proof. apply in_box_points. exact Hwf. Qed.
Lemma z_out p : z p <> 0%R -> in_box b p.
Proof. unfold z, zero_outside. destruct (contains b p) eqn:C; [intros _; apply contains_iff; exact C|intros H; congruence]. Qed.
Lemma shifted_le v : length v = length (lo b) -> (Rsum (fun p => z (padd p v) * z (padd p v)) pts <= S)%R.
Proof.
  intros Hv. rewrite <- (Rsum_map (fun q => z q * z q)%R (fun p => padd p v)).
  assert (E : Rsum (fun q => z q * z q)%R (map (fun p => padd p v) pts) = Rsum (fun q => z q * z q)%R (filter (contains b) (map (fun p => padd p v) pts))).
  { rewrite Rsum_filter. apply Rsum_ext. intros q _. destruct (contains b q) eqn:C; [reflexivity|]. unfold z, zero_outside. rewrite C. ring. }
  rewrite E. apply Rsum_incl_le.
  - apply NoDup_filter. assert (Hnd := NoDup_box_points o b). fold pts in Hnd.
    assert (Hl : forall p, In p pts -> length p = length v) by (intros p Hp; apply in_pts in Hp; destruct Hp as [Hp _]; congruence).
    clear E. revert Hnd Hl. generalize pts as l. induction l as [|q l IH]; intros Hnd Hl; [constructor|]. inversion Hnd as [|? ? Hq Hnd']; subst. cbn [map]. constructor.
    + intros C. apply in_map_iff in C. destruct C as [q' [C1 C2]]. apply Hq. replace q with q'; [exact C2|].
      apply padd_inj with v; [apply Hl; right; exact C2|apply Hl; left; reflexivity|exact C1].
    + apply IH; [exact Hnd'|]. intros p Hp. apply Hl. right. exact Hp.
  - intros q Hq. apply filter_In in Hq. apply in_pts, contains_iff, Hq.
  - intros q _. apply Rle_0_sqr.
Qed.
Lemma shifted_product v : length v = length (lo b) -> (Rabs (D v) <= S)%R.
Proof.
  intros Hv. assert (B := shifted_le v Hv).
  assert (P : (0 <= Rsum (fun p => (z p + z (padd p v)) * (z p + z (padd p v))) pts)%R) by (apply Rsum_nonneg; intros; apply Rle_0_sqr).
  assert (M : (0 <= Rsum (fun p => (z p - z (padd p v)) * (z p - z (padd p v))) pts)%R) by (apply Rsum_nonneg; intros; apply Rle_0_sqr).
  rewrite (Rsum_ext _ (fun p => (z p * z p + z (padd p v) * z (padd p v)) + 2 * (z p * z (padd p v)))%R) in P by (intros; ring).
  rewrite (Rsum_ext _ (fun p => (z p * z p + z (padd p v) * z (padd p v)) + -2 * (z p * z (padd p v)))%R) in M by (intros; ring).
  rewrite !Rsum_plus, Rsum_scal in P, M. unfold D. fold S in P, M. apply Rabs_le. lra.
Qed.
Lemma shifted_product_strict v : length v = length (lo b) -> is_origin v = false -> (exists p, in_box b p /\ z p <> 0%R) -> (Rabs (D v) < S)%R.
Proof.
  intros Hv Ho [p [Hp Hz]]. destruct (Rle_lt_or_eq_dec _ _ (shifted_product v Hv)) as [H|H]; [exact H|exfalso].
  assert (B := shifted_le v Hv).
  assert (Sq : forall q, In q pts -> (z (padd q v) * z (padd q v) = z q * z q)%R).
  { assert (C : (D v = S \/ D v = - S)%R) by (unfold Rabs in H; destruct (Rcase_abs (D v)); [right|left]; lra).
    destruct C as [C|C].
    - assert (M : Rsum (fun p => (z p - z (padd p v)) * (z p - z (padd p v)))%R pts = 0%R).
      { apply Rle_antisym; [|apply Rsum_nonneg; intros; apply Rle_0_sqr].
        rewrite (Rsum_ext _ (fun p => (z p * z p + z (padd p v) * z (padd p v)) + -2 * (z p * z (padd p v)))%R) by (intros; ring).
        rewrite !Rsum_plus, Rsum_scal. fold S. fold (D v). lra. }
      intros q Hq. assert (E := @Rsum_nonneg_zero _ _ _ (fun q _ => Rle_0_sqr (z q - z (padd q v))) M q Hq). unfold Rsqr in E.
      assert (E' : (z q - z (padd q v) = 0)%R) by (apply Rmult_integral in E; destruct E; assumption).
      replace (z (padd q v)) with (z q) by lra. reflexivity.
    - assert (M : Rsum (fun p => (z p + z (padd p v)) * (z p + z (padd p v)))%R pts = 0%R).
      { apply Rle_antisym; [|apply Rsum_nonneg; intros; apply Rle_0_sqr].
        rewrite (Rsum_ext _ (fun p => (z p * z p + z (padd p v) * z (padd p v)) + 2 * (z p * z (padd p v)))%R) by (intros; ring).
        rewrite !Rsum_plus, Rsum_scal. fold S. fold (D v). lra. }
      intros q Hq. assert (E := @Rsum_nonneg_zero _ _ _ (fun q _ => Rle_0_sqr (z q + z (padd q v))) M q Hq). unfold Rsqr in E.
      assert (E' : (z q + z (padd q v) = 0)%R) by (apply Rmult_integral in E; destruct E; assumption).
      replace (z (padd q v)) with (- z q)%R by lra. ring. }
  assert (All : forall k, z (shift v k p) <> 0%R).
  { induction k as [|k IH]; cbn [shift]; [exact Hz|]. intros C. specialize (Sq (shift v k p)). rewrite C in Sq.
    assert (z (shift v k p) * z (shift v k p) = 0)%R by (rewrite <- Sq; [ring|apply in_pts, z_out, IH]). apply Rmult_integral in H0. tauto. }
  destruct (shift_leaves v Hp Hv Ho) as [k Hk]. apply Hk, z_out, All.
Qed.
Lemma quadratic_form offs : Rsum (fun p => x p * convolve b offs x p)%R pts = Rsum (fun oe => snd oe * D (fst oe))%R offs.
Proof.
  rewrite (Rsum_ext _ (fun p => Rsum (fun oe => snd oe * (z p * z (padd p (fst oe))))%R offs)).
  - rewrite Rsum_swap. apply Rsum_ext. intros oe _. apply Rsum_scal.
  - intros p Hp. unfold convolve. rewrite <- Rsum_scal. apply Rsum_ext. intros oe _. fold z.
    replace (x p) with (z p); [ring|]. unfold z, zero_outside. apply in_pts, contains_iff in Hp. rewrite Hp. reflexivity.
Qed.
End Quad.

Lemma centre_sum b offs : offsets_dim b offs -> centre b offs = Rsum (fun oe => if is_origin (fst oe) then snd oe else 0%R) offs.
Proof.
  intros Hd. unfold centre, coefficient. apply Rsum_ext. intros oe Hin. unfold offsets_dim in Hd. rewrite Forall_forall in Hd. specialize (Hd _ Hin).
  destruct (point_eq_dec (fst oe) (origin b)) as [E|E]; destruct (is_origin (fst oe)) eqn:O; try reflexivity; exfalso.
  - apply (is_origin_spec b (fst oe) Hd) in E. congruence.
  - apply E. apply (is_origin_spec b (fst oe) Hd). exact O.
Qed.
Theorem dominant_stencil_positive o b offs : wf_box b -> offsets_dim b offs -> dominant_stencil b offs -> positive_stencil o b offs.
Proof.
  intros Hwf Hd [H0 H1] x [p [Hp Hx]]. rewrite (quadratic_form o Hwf x offs).
  set (z := zero_outside b x). set (pts := box_points o b). set (S := Rsum (fun p => z p * z p)%R pts). set (D := fun v => Rsum (fun p => z p * z (padd p v))%R pts).
  change (0 < Rsum (fun oe => snd oe * D (fst oe)) offs)%R.
  assert (Hz : z p <> 0%R) by (unfold z, zero_outside; apply contains_iff in Hp; rewrite Hp; exact Hx).
  assert (HS : (0 < S)%R).
  { destruct (Rle_lt_or_eq_dec 0 S) as [H|H]; [apply Rsum_nonneg; intros; apply Rle_0_sqr|exact H|].
    exfalso. symmetry in H. assert (E := @Rsum_nonneg_zero _ _ _ (fun q _ => Rle_0_sqr (z q)) H p (proj2 (in_box_points o b p Hwf) Hp)). unfold Rsqr in E. apply Rmult_integral in E. tauto. }
  assert (Hdim : forall oe, In oe offs -> length (fst oe) = length (lo b)) by (unfold offsets_dim in Hd; rewrite Forall_forall in Hd; exact Hd).
  assert (D0 : forall v, length v = length (lo b) -> is_origin v = true -> D v = S).
  { intros v Hv Ho. apply (is_origin_spec b v Hv) in Ho. subst v. apply Rsum_ext. intros q Hq. apply (in_box_points o b q Hwf) in Hq. rewrite padd_origin by apply Hq. reflexivity. }
  (* the sum is at least centre * S - sum |e| |D| *)
  assert (Low : forall l, (forall oe, In oe l -> length (fst oe) = length (lo b)) ->
     (Rsum (fun oe => if is_origin (fst oe) then snd oe else 0) l * S - Rsum (fun oe => if is_origin (fst oe) then 0 else Rabs (snd oe)) l * S <= Rsum (fun oe => snd oe * D (fst oe)) l)%R /\
     ((exists oe, In oe l /\ is_origin (fst oe) = false /\ snd oe <> 0%R) ->
     (Rsum (fun oe => if is_origin (fst oe) then snd oe else 0) l * S - Rsum (fun oe => if is_origin (fst oe) then 0 else Rabs (snd oe)) l * S < Rsum (fun oe => snd oe * D (fst oe)) l)%R)).
  { induction l as [|[v e] l IH]; intros Hl.
    - rewrite !Rsum_nil. split; [lra|]. intros [oe [[] _]].
    - rewrite !Rsum_cons. cbn [fst snd]. destruct IH as [IH1 IH2]; [intros; apply Hl; right; assumption|].
      assert (Hv : length v = length (lo b)) by (apply (Hl (v, e)); left; reflexivity). destruct (is_origin v) eqn:Ho.
      + rewrite (D0 v Hv Ho). split; [nra|]. intros [[v' e'] [[E|Hin] [E1 E2]]]; [injection E as <- <-; cbn [fst] in E1; congruence|].
        assert (L : exists oe, In oe l /\ is_origin (fst oe) = false /\ snd oe <> 0%R) by (exists (v', e'); auto). specialize (IH2 L). nra.
      + assert (B := shifted_product o Hwf x v Hv). change (Rabs (D v) <= S)%R in B.
        assert (K : (- (Rabs e * Rabs (D v)) <= e * D v)%R) by (rewrite <- Rabs_mult; unfold Rabs; destruct (Rcase_abs (e * D v)); lra).
        assert (Ae := Rabs_pos e). split; [nra|]. intros [[v' e'] [[E|Hin] [E1 E2]]].
        * injection E as <- <-. cbn [fst snd] in *. assert (Bs := @shifted_product_strict o b Hwf x v Hv Ho (ex_intro _ p (conj Hp Hz))). change (Rabs (D v) < S)%R in Bs.
          assert (0 < Rabs e)%R by (apply Rabs_pos_lt; exact E2). nra.
        * assert (L : exists oe, In oe l /\ is_origin (fst oe) = false /\ snd oe <> 0%R) by (exists (v', e'); auto). specialize (IH2 L). nra. }
  destruct (Low offs Hdim) as [Lw Ls]. rewrite centre_sum in H0, H1 by exact Hd. unfold off_centre_weight in H1.
  destruct (existsb (fun oe => negb (is_origin (fst oe)) && if Req_EM_T (snd oe) 0 then false else true) offs) eqn:Ex.
  - apply existsb_exists in Ex. destruct Ex as [oe [Hin E]]. apply andb_true_iff in E. destruct E as [E1 E2]. apply negb_true_iff in E1.
    assert (L : exists oe, In oe offs /\ is_origin (fst oe) = false /\ snd oe <> 0%R) by (exists oe; destruct (Req_EM_T (snd oe) 0); [discriminate|auto]).
    specialize (Ls L). nra.
  - assert (W : Rsum (fun oe => if is_origin (fst oe) then 0%R else Rabs (snd oe)) offs = 0%R).
    { transitivity (Rsum (fun _ : point * R => 0%R) offs); [|apply Rsum_zero]. apply Rsum_ext. intros oe Hin. destruct (is_origin (fst oe)) eqn:E1; [reflexivity|].
      destruct (Req_EM_T (snd oe) 0) as [E2|E2]; [rewrite E2; apply Rabs_R0|]. exfalso.
      assert (T : existsb (fun oe => negb (is_origin (fst oe)) && if Req_EM_T (snd oe) 0 then false else true) offs = true); [|congruence].
      apply existsb_exists. exists oe. split; [exact Hin|]. rewrite E1. cbn [negb andb]. destruct (Req_EM_T (snd oe) 0); [contradiction|reflexivity]. }
    rewrite W in *. nra.
Qed.
