(** PropsVector: properties C03 - C07 (operations on partitioned vectors). *)
From Verif Require Import Base Index Outcome Sched Async Arith Launch Vector VectorFacts LaunchFacts Builder BuilderFacts Exec ExactSum Matrix MatrixSpec.
From Coq Require Import Reals Lra.
From Coq Require Import Floats.SpecFloat.
Set Implicit Arguments.

(** ** The element-wise operations, uniformly *)
Inductive vop (T : Type) :=
| Fill (c : T) | FillFuture (f : nat) | ZeroFill
| Copy (x : pvec)
| Scal (fs : list nat) | Axpy (fs : list nat) (x : pvec) | Xpay (fs : list nat) (x : pvec).
Arguments FillFuture {T}.
Arguments ZeroFill {T}.
Arguments Copy {T}.
Arguments Scal {T}.
Arguments Axpy {T}.
Arguments Xpay {T}.
Section Ops.
Variable T : Type.
Variable A : arith T.
(** the API call [op] on vector [y] *)
Definition call (lg : legion) (y : pvec) (op : vop T) : outcome (launch T) :=
  match op with
  | Fill c => constant_fill lg y c
  | FillFuture f => constant_fill_future A lg y f
  | ZeroFill => zero_fill A lg y
  | Copy x => copy A lg y x
  | Scal fs => scal A lg y fs
  | Axpy fs x => axpy A lg y fs x
  | Xpay fs x => xpay A lg y fs x
  end.
(** the coefficient meant by a list of factors *)
Inductive coefficient : list T -> T -> Prop :=
| co_none : coefficient [] (a1 A)
| co_one a : coefficient [a] a
| co_two a b : coefficient [a; b] (adiv A a b)
| co_three a b c : coefficient [a; b; c] (adiv A (amul A a b) c)
| co_four a b c d : coefficient [a; b; c; d] (adiv A (amul A a b) (amul A c d)).
(** the new value of entry [p], given the store before the operation *)
Inductive new_entry (s : store loc T) (y : pvec) (p : point) : vop T -> T -> Prop :=
| ne_fill c : new_entry s y p (Fill c) c
| ne_fill_future f : new_entry s y p (FillFuture f) (s (LFut f))
| ne_zero : new_entry s y p ZeroFill (a0 A)
| ne_copy x : new_entry s y p (Copy x) (s (at_point x p))
| ne_scal fs alpha : coefficient (map (fun f => s (LFut f)) fs) alpha -> new_entry s y p (Scal fs) (amul A alpha (s (at_point y p)))
| ne_axpy fs x alpha : coefficient (map (fun f => s (LFut f)) fs) alpha ->
    new_entry s y p (Axpy fs x) (afma A alpha (s (at_point x p)) (s (at_point y p)))
| ne_xpay fs x alpha : coefficient (map (fun f => s (LFut f)) fs) alpha ->
    new_entry s y p (Xpay fs x) (afma A alpha (s (at_point y p)) (s (at_point x p))).

Lemma get_alpha_coefficient vs alpha : get_alpha A vs = Ok alpha -> coefficient vs alpha.
Proof. destruct vs as [|a [|b [|c [|d [|e vs]]]]]; cbn; intros H; try discriminate; injection H as <-; constructor. Qed.
Lemma coefficient_fun vs x y : coefficient vs x -> coefficient vs y -> x = y.
Proof. destruct 1; inversion 1; subst; reflexivity. Qed.
Lemma new_entry_fun s y p op a b : new_entry s y p op a -> new_entry s y p op b -> a = b.
Proof.
  intros H1 H2. destruct H1; inversion H2; subst; try reflexivity;
  match goal with H : coefficient ?v ?a, K : coefficient ?v ?b |- _ => rewrite (coefficient_fun H K) end; reflexivity.
Qed.

Variable lg : legion.
Hypothesis Hlg : legion_ok lg.
Lemma call_good y op ln : constructed lg y -> call lg y op = Ok ln -> good_launch ln.
Proof.
  intros Hc H. destruct op; cbn [call] in H.
  - exact (@fill_good T lg Hlg y c ln Hc H).
  - exact (@fill_future_good T A lg Hlg y f ln Hc H).
  - exact (@fill_good T lg Hlg y (a0 A) ln Hc H).
  - exact (@copy_good T A lg Hlg y x ln Hc H).
  - exact (@scal_good T A lg Hlg y fs ln Hc H).
  - exact (@axpy_good T A lg Hlg y fs x ln Hc H).
  - exact (@xpay_good T A lg Hlg y fs x ln Hc H).
Qed.
Lemma call_effect y op ln : constructed lg y -> call lg y op = Ok ln -> forall s s', launches_end [ln] s s' ->
  (forall p, In p (is_points lg (pv_space y)) -> new_entry s y p op (s' (at_point y p))) /\
  (forall l, (forall p, In p (is_points lg (pv_space y)) -> l <> at_point y p) -> s' l = s l).
Proof.
  intros Hc H s s' He. assert (Hg : Forall good_launch [ln]) by (constructor; [eapply call_good; eassumption|constructor]).
  assert (E := launches_end_effect Hg He). assert (E2 : forall l, s' l = run loc_dec (concat (ln_tasks ln)) s l) by (intros l; rewrite E, effect_one; reflexivity).
  assert (Hil := interleave_concat (ln_tasks ln)).
  assert (G : forall g, updates_vector lg y g s (run loc_dec (concat (ln_tasks ln)) s) ->
     (forall p, In p (is_points lg (pv_space y)) -> new_entry s y p op (g p)) ->
     (forall p, In p (is_points lg (pv_space y)) -> new_entry s y p op (s' (at_point y p))) /\
     (forall l, (forall p, In p (is_points lg (pv_space y)) -> l <> at_point y p) -> s' l = s l)).
  { intros g [U1 U2] Hg2. split.
    - intros p Hp. rewrite E2, (U1 p Hp). apply Hg2. exact Hp.
    - intros l Hl. rewrite E2. apply U2. exact Hl. }
  destruct op; cbn [call] in H.
  - eapply G; [exact (@fill_effect T lg Hlg y c ln _ Hc H Hil s)|]. intros; constructor.
  - eapply G; [exact (@fill_future_effect T A lg Hlg y f ln _ Hc H Hil s)|]. intros; constructor.
  - eapply G; [exact (@fill_effect T lg Hlg y (a0 A) ln _ Hc H Hil s)|]. intros; constructor.
  - eapply G; [exact (@copy_effect T A lg Hlg y x ln _ Hc H Hil s)|]. intros; constructor.
  - destruct (@scal_effect T A lg Hlg y fs ln _ Hc H Hil s) as [al [Ea U]]. eapply G; [exact U|]. intros; constructor. apply get_alpha_coefficient; exact Ea.
  - destruct (@axpy_effect T A lg Hlg y fs x ln _ Hc H Hil s) as [al [Ea U]]. eapply G; [exact U|]. intros; constructor. apply get_alpha_coefficient; exact Ea.
  - destruct (@xpay_effect T A lg Hlg y fs x ln _ Hc H Hil s) as [al [Ea U]]. eapply G; [exact U|]. intros; constructor. apply get_alpha_coefficient; exact Ea.
Qed.
End Ops.

(** ** C03.  The coefficient applied by scal, axpy and xpay; five or more factors are rejected and at most four
    are accepted (given compatible, distinct operands). *)
Definition factors_of {T} (op : vop T) : option (list nat) :=
  match op with Scal fs => Some fs | Axpy fs _ => Some fs | Xpay fs _ => Some fs | _ => None end.
Definition operand {T} (op : vop T) : option pvec :=
  match op with Copy x => Some x | Axpy _ x => Some x | Xpay _ x => Some x | _ => None end.
Definition distinct_storage (v w : pvec) : Prop := pv_region v <> pv_region w \/ pv_fid v <> pv_fid w.
Theorem C03_step_factors : forall (T : Type) (A : arith T) (lg : legion) (y : pvec) (op : vop T) (fs : list nat),
  legion_ok lg -> constructed lg y -> factors_of op = Some fs ->
  (4 < length fs -> call A lg y op = AssertFail) /\
  (length fs <= 4 -> (forall x, operand op = Some x -> same_layout y x = true /\ distinct_storage y x) ->
     exists ln, call A lg y op = Ok ln) /\
  (forall ln s s', call A lg y op = Ok ln -> launches_end [ln] s s' ->
     exists alpha, coefficient A (map (fun f => s (LFut f)) fs) alpha /\
       forall p, In p (is_points lg (pv_space y)) ->
         match op with
         | Axpy _ x => s' (at_point y p) = afma A alpha (s (at_point x p)) (s (at_point y p))
         | Xpay _ x => s' (at_point y p) = afma A alpha (s (at_point y p)) (s (at_point x p))
         | _ => s' (at_point y p) = amul A alpha (s (at_point y p))
         end).
Proof.
  intros T A lg y op fs Hlg Hc Hf.
  assert (Hsub : forall x, distinct_storage y x -> interfering [get_requirement lg y READ_WRITE; get_requirement lg x READ_ONLY] = false).
  { intros x Hd. cbn. unfold reqs_alias. cbn. destruct Hd as [E|E]; apply Nat.eqb_neq in E; rewrite E; [reflexivity|].
    rewrite andb_false_r. reflexivity. }
  split; [|split].
  - intros Hlen. assert (Ha : alpha_ok fs = false) by (unfold alpha_ok; apply Nat.leb_gt; exact Hlen).
    destruct op; cbn in Hf; try discriminate; injection Hf as ->; cbn [call]; unfold scal, axpy, xpay; rewrite Ha; cbn [oassert]; try reflexivity;
      destruct (same_layout y x); reflexivity.
  - intros Hlen Hx. assert (Ha : alpha_ok fs = true) by (unfold alpha_ok; apply Nat.leb_le; exact Hlen).
    destruct op as [| | | |fs0|fs0 x|fs0 x]; cbn in Hf; try discriminate; injection Hf as ->; cbn [call]; unfold scal, axpy, xpay; rewrite Ha; cbn [oassert].
    + eexists. reflexivity.
    + destruct (Hx x eq_refl) as [Hl Hd]. rewrite Hl. cbn [oassert]. unfold submit. cbn [ln_reqs]. rewrite (Hsub x Hd). eexists; reflexivity.
    + destruct (Hx x eq_refl) as [Hl Hd]. rewrite Hl. cbn [oassert]. unfold submit. cbn [ln_reqs]. rewrite (Hsub x Hd). eexists; reflexivity.
  - intros ln s s' H He. destruct (call_effect A Hlg op Hc H He) as [U _].
    assert (Ha : alpha_ok fs = true).
    { destruct op as [| | | |fs0|fs0 x|fs0 x]; cbn in Hf; try discriminate; injection Hf as ->; cbn [call] in H.
      - apply oassert_ok in H. apply H.
      - apply oassert_ok in H. destruct H as [_ H]. apply oassert_ok in H. apply H.
      - apply oassert_ok in H. destruct H as [_ H]. apply oassert_ok in H. apply H. }
    destruct (alpha_ok_get A _ Ha s) as [alpha Hal]. apply get_alpha_coefficient in Hal. unfold fut in Hal. exists alpha. split; [exact Hal|].
    intros p Hp. specialize (U p Hp).
    destruct op as [| | | |fs0|fs0 x|fs0 x]; cbn in Hf; try discriminate; injection Hf as ->; inversion U as [| | | |? al Hc2|? ? al Hc2|? ? al Hc2]; subst;
      rewrite (coefficient_fun Hc2 Hal); reflexivity.
Qed.

(** ** C04 *)
Theorem C04_elementwise_exact : forall (T : Type) (A : arith T) (lg : legion) (y : pvec) (op : vop T) (ln : launch T) (s s' : store loc T),
  legion_ok lg -> constructed lg y -> call A lg y op = Ok ln -> launches_end [ln] s s' ->
  (forall p, In p (is_points lg (pv_space y)) -> new_entry A s y p op (s' (at_point y p))) /\
  (forall l, (forall p, In p (is_points lg (pv_space y)) -> l <> at_point y p) -> s' l = s l).
Proof. intros T A lg y op ln s s' Hlg Hc H He. exact (call_effect A Hlg op Hc H He). Qed.

(** Two vectors with the same storage and index space, possibly partitioned differently. *)
Definition same_data (v w : pvec) : Prop := pv_region v = pv_region w /\ pv_fid v = pv_fid w /\ pv_space v = pv_space w.
Inductive same_op {T} : vop T -> vop T -> Prop :=
| so_fill c : same_op (Fill c) (Fill c)
| so_ff f : same_op (FillFuture f) (FillFuture f)
| so_zero : same_op ZeroFill ZeroFill
| so_copy x x' : same_data x x' -> same_op (Copy x) (Copy x')
| so_scal fs : same_op (Scal fs) (Scal fs)
| so_axpy fs x x' : same_data x x' -> same_op (Axpy fs x) (Axpy fs x')
| so_xpay fs x x' : same_data x x' -> same_op (Xpay fs x) (Xpay fs x').
Theorem C04_partition_and_schedule_independent : forall (T : Type) (A : arith T) (lg : legion) (y y' : pvec) (op op' : vop T) ln ln' s s1 s2,
  legion_ok lg -> constructed lg y -> constructed lg y' -> same_data y y' -> same_op op op' ->
  call A lg y op = Ok ln -> call A lg y' op' = Ok ln' ->
  launches_end [ln] s s1 -> launches_end [ln'] s s2 -> forall l, s1 l = s2 l.
Proof.
  intros T A lg y y' op op' ln ln' s s1 s2 Hlg Hc Hc' [D1 [D2 D3]] Hop H H' He He' l.
  destruct (call_effect A Hlg op Hc H He) as [U1 U2]. destruct (call_effect A Hlg op' Hc' H' He') as [V1 V2].
  assert (Eat : forall p, at_point y p = at_point y' p) by (intros p; unfold at_point; congruence).
  assert (dec : (exists p, In p (is_points lg (pv_space y)) /\ l = at_point y p) \/ (forall p, In p (is_points lg (pv_space y)) -> l <> at_point y p)).
  { clear. induction (is_points lg (pv_space y)) as [|p ps IH]; [right; intros p []|].
    destruct (loc_dec l (at_point y p)) as [E|E]; [left; exists p; split; [left; reflexivity|exact E]|].
    destruct IH as [[q [Hq Eq]]|IH]; [left; exists q; split; [right; exact Hq|exact Eq]|].
    right. intros q [<-|Hq]; [exact E|apply IH; exact Hq]. }
  destruct dec as [[p [Hp ->]]|Hn].
  - specialize (U1 p Hp). rewrite D3 in Hp. specialize (V1 p Hp). rewrite <- Eat in V1.
    eapply new_entry_fun; [exact U1|].
    assert (Ed : forall x x' : pvec, same_data x x' -> at_point x p = at_point x' p) by (intros x x' [X1 [X2 _]]; unfold at_point; congruence).
    destruct Hop; inversion V1; subst; rewrite ?(Ed _ _ H0) in *; try constructor; try assumption.
    + rewrite <- (Ed _ _ H0). constructor.
    + rewrite <- Eat. constructor; assumption.
    + rewrite <- (Ed _ _ H0), <- Eat. constructor; assumption.
    + rewrite <- (Ed _ _ H0), <- Eat. constructor; assumption.
  - rewrite U2 by exact Hn. rewrite V2; [reflexivity|]. intros p Hp. rewrite <- Eat. apply Hn. rewrite D3. exact Hp.
Qed.

(** A 2-D index space of six points, partitioned (2) into rows and (3) into singletons, two vectors on it. *)
Definition grid6 : list point := [[0;0];[0;1];[0;2];[1;0];[1;1];[1;2]]%Z.
Definition lg6 : legion := mk_legion (fun s => if s =? 1 then grid6 else []) (fun q => if (q =? 2) || (q =? 3) then 1 else 0)
  (fun q => q)
  (fun q => if q =? 2 then [[[0;0];[0;1];[0;2]];[[1;0];[1;1];[1;2]]]%Z else if q =? 3 then map (fun p => [p]) grid6 else []).
Ltac nodup_points := repeat (constructor; [cbn; intuition discriminate|]); constructor.
Lemma lg6_ok : legion_ok lg6.
Proof.
  split.
  - intros s. cbn. destruct (s =? 1); [nodup_points|constructor].
  - intros q piece. cbn. destruct (q =? 2) eqn:E2.
    + cbn. intros [<-|[<-|[]]]; (split; [nodup_points|intros p Hp; cbn in *; tauto]).
    + destruct (q =? 3) eqn:E3; [|intros []]. cbn.
      intros [<-|[<-|[<-|[<-|[<-|[<-|[]]]]]]]; (split; [nodup_points|intros p Hp; cbn in *; tauto]).
Qed.
Definition y6 : pvec := mk_pvec 1 0 10 2 2.
Definition x6 : pvec := mk_pvec 1 0 11 2 2.
Example C03_C04_example : legion_ok lg6 /\ make_vector lg6 2 10 0 = Ok y6 /\ make_vector lg6 2 11 0 = Ok x6 /\
  (exists v, make_vector lg6 3 10 0 = Ok v /\ same_data y6 v) /\
  (exists ln, call exact lg6 y6 (Axpy [0; 1; 2] x6) = Ok ln) /\
  (forall ln s s', s = (fun l => match l with LFut n => Some (INR n + 1)%R | LVec 10 _ _ => Some 100%R | LVec 11 _ _ => Some 6%R | _ => None end) ->
     call exact lg6 y6 (Axpy [0; 1; 2] x6) = Ok ln -> launches_end [ln] s s' ->
     (* alpha = (1*2)/3 *) s' (at_point y6 [1;2]%Z) = Some 104%R).
Proof.
  assert (Hc : constructed lg6 y6) by (exists 2, 10, 0; reflexivity).
  split; [exact lg6_ok|]. split; [reflexivity|]. split; [reflexivity|]. split; [eexists; split; [reflexivity|repeat split]|].
  split; [eexists; reflexivity|].
  intros ln s s' Es H He. assert (Hp : In [1;2]%Z (is_points lg6 (pv_space y6))) by (cbn; tauto).
  assert (Hf : factors_of (Axpy [0; 1; 2] x6 : vop (option R)) = Some [0; 1; 2]) by reflexivity.
  destruct (@C03_step_factors _ exact lg6 y6 (Axpy [0; 1; 2] x6) [0; 1; 2] lg6_ok Hc Hf) as [_ [_ U]].
  destruct (U ln s s' H He) as [al [Hco U2]]. specialize (U2 _ Hp). cbv beta iota in U2. rewrite U2. subst s. cbn in *.
  inversion Hco as [| | |a b c E1 E2|]. subst a b c. clear. cbn. destruct (Req_EM_T (1 + 1 + 1) 0) as [Z|Z]; [lra|]. cbn. f_equal. field.
Qed.

(** ** C05.  The exact dot product. *)
Section DotExact.
Variable lg : legion.
Hypothesis Hlg : legion_ok lg.
Variable reduction : nat -> list (option R) -> option R.
Hypothesis Hred : legal_reduction exact reduction.
(** the vector [v] holds the real numbers [f] *)
Definition holds (s : store loc (option R)) (v : pvec) (f : point -> R) : Prop :=
  forall p, In p (is_points lg (pv_space v)) -> s (at_point v p) = Some (f p).
Lemma same_layout_space v w : same_layout v w = true -> pv_space v = pv_space w.
Proof. unfold same_layout. rewrite !andb_true_iff. intros [[H _] _]. apply Nat.eqb_eq. exact H. Qed.
Lemma dot_future v w n lns s s' : dot exact lg reduction v w n = Ok lns -> launches_end lns s s' ->
  s' (LFut n) = reduction n (map (partial_dot exact s v w) (pieces lg v)) /\
  forall l, l <> LFut n -> (forall c, l <> LPart n c) -> s' l = s l.
Proof.
  intros H He. assert (Hg := dot_good _ lg reduction _ _ _ H). assert (E := launches_end_effect Hg He).
  assert (H2 := H). apply oassert_ok in H2. destruct H2 as [_ H2]. unfold obind in H2.
  match type of H2 with match ?m with _ => _ end = _ => destruct m as [ln| | |] eqn:Es; try discriminate end. injection H2 as <-.
  match type of H with _ = Ok [?a; ?b] => set (ln2 := b) in *; set (ln1 := a) in * end.
  destruct (@dot_effect _ exact lg reduction v w n [ln1; ln2] (concat (ln_tasks ln1)) (concat (ln_tasks ln2)) H) with (s := s) as [D1 D2].
  { repeat constructor; apply interleave_concat. }
  split; [|intros l L1 L2]; rewrite E, effect_cons, !effect_one, <- run_app; [exact D1|apply D2; assumption].
Qed.
Lemma dot_exact_value v w n lns s s' : constructed lg v -> dot exact lg reduction v w n = Ok lns -> launches_end lns s s' ->
  s' (LFut n) = osum (map (fun p => lift2 Rmult (s (at_point v p)) (s (at_point w p))) (is_points lg (pv_space v))).
Proof.
  intros Hc H He. destruct (dot_future _ _ _ H He) as [-> _]. rewrite (reduces_to_exact (Hred _ _)).
  assert (E : map (partial_dot exact s v w) (pieces lg v) = map osum (map (map (fun p => lift2 Rmult (s (at_point v p)) (s (at_point w p)))) (pieces lg v))).
  { rewrite map_map. apply map_ext. intros piece. apply partial_dot_exact. }
  rewrite E, <- osum_concat, <- concat_map. apply osum_perm. apply Permutation_map. apply constructed_perm; assumption.
Qed.
End DotExact.

Theorem C05_dot_is_sum : forall (lg : legion) (reduction : nat -> list (option R) -> option R) v w n lns s s' (f g : point -> R),
  legion_ok lg -> legal_reduction exact reduction -> constructed lg v ->
  dot exact lg reduction v w n = Ok lns -> launches_end lns s s' -> holds lg s v f -> holds lg s w g ->
  s' (LFut n) = Some (Rsum (fun p => f p * g p)%R (is_points lg (pv_space v))) /\
  (forall v' p, s' (at_point v' p) = s (at_point v' p)).
Proof.
  intros lg reduction v w n lns s s' f g Hlg Hred Hc H He Hf Hg. split.
  - rewrite (dot_exact_value Hlg Hred _ _ Hc H He). assert (Hl : same_layout v w = true) by (apply oassert_ok in H; apply H).
    rewrite <- osum_some. f_equal. apply map_ext_in. intros p Hp. rewrite (Hf p Hp).
    rewrite (same_layout_space _ _ Hl) in Hp. rewrite (Hg p Hp). reflexivity.
  - intros v' p. apply (dot_future lg reduction v w n H He); discriminate.
Qed.
(** symmetric *)
Theorem C05_dot_symmetric : forall (lg : legion) (r1 r2 : nat -> list (option R) -> option R) v w n m lns lns' s s1 s2,
  legion_ok lg -> legal_reduction exact r1 -> legal_reduction exact r2 -> constructed lg v -> constructed lg w ->
  dot exact lg r1 v w n = Ok lns -> dot exact lg r2 w v m = Ok lns' ->
  launches_end lns s s1 -> launches_end lns' s s2 -> s1 (LFut n) = s2 (LFut m).
Proof.
  intros lg r1 r2 v w n m lns lns' s s1 s2 Hlg R1 R2 Hv Hw H H' He He'.
  rewrite (dot_exact_value Hlg R1 _ _ Hv H He), (dot_exact_value Hlg R2 _ _ Hw H' He').
  assert (Hl : same_layout v w = true) by (apply oassert_ok in H; apply H). rewrite (same_layout_space _ _ Hl). f_equal.
  apply map_ext. intros p. destruct (s (at_point v p)), (s (at_point w p)); cbn; try reflexivity. f_equal. ring.
Qed.
(** linear in the first argument (hence, by symmetry, bilinear): u = a*v + b*w *)
Theorem C05_dot_linear : forall (lg : legion) (red : nat -> list (option R) -> option R) u v w z nu nv nw lu lv lw s su sv sw (a b : R) (f g h : point -> R),
  legion_ok lg -> legal_reduction exact red -> constructed lg u -> constructed lg v -> constructed lg w ->
  same_layout u v = true -> same_layout u w = true ->
  holds lg s v f -> holds lg s w g -> holds lg s z h -> holds lg s u (fun p => a * f p + b * g p)%R ->
  dot exact lg red u z nu = Ok lu -> dot exact lg red v z nv = Ok lv -> dot exact lg red w z nw = Ok lw ->
  launches_end lu s su -> launches_end lv s sv -> launches_end lw s sw ->
  exists dv dw, sv (LFut nv) = Some dv /\ sw (LFut nw) = Some dw /\ su (LFut nu) = Some (a * dv + b * dw)%R.
Proof.
  intros lg red u v w z nu nv nw lu lv lw s su sv sw a b f g h Hlg Hred Cu Cv Cw L1 L2 Hf Hg Hh Hu Du Dv Dw Eu Ev Ew.
  destruct (@C05_dot_is_sum lg red u z nu lu s su _ h Hlg Hred Cu Du Eu Hu Hh) as [-> _]. destruct (@C05_dot_is_sum lg red v z nv lv s sv _ h Hlg Hred Cv Dv Ev Hf Hh) as [-> _].
  destruct (@C05_dot_is_sum lg red w z nw lw s sw _ h Hlg Hred Cw Dw Ew Hg Hh) as [-> _]. eexists _, _. split; [reflexivity|]. split; [reflexivity|]. f_equal.
  rewrite <- (same_layout_space _ _ L1), <- (same_layout_space _ _ L2).
  rewrite <- !Rsum_scal, <- Rsum_plus. apply Rsum_ext. intros p _. ring.
Qed.
(** dot(v, v) >= 0, and it is 0 only for the zero vector *)
Theorem C05_dot_positive : forall (lg : legion) (red : nat -> list (option R) -> option R) v n lns s s' f,
  legion_ok lg -> legal_reduction exact red -> constructed lg v -> dot exact lg red v v n = Ok lns -> launches_end lns s s' -> holds lg s v f ->
  exists d, s' (LFut n) = Some d /\ (0 <= d)%R /\ (d = 0%R -> forall p, In p (is_points lg (pv_space v)) -> f p = 0%R).
Proof.
  intros lg red v n lns s s' f Hlg Hred Hc H He Hf. destruct (@C05_dot_is_sum lg red v v n lns s s' f f Hlg Hred Hc H He Hf Hf) as [-> _].
  eexists. split; [reflexivity|]. assert (Hpos : forall p, In p (is_points lg (pv_space v)) -> (0 <= f p * f p)%R) by (intros p _; nra).
  split; [apply Rsum_nonneg; exact Hpos|]. intros E p Hp.
  assert (Z := Rsum_nonneg_zero _ _ Hpos E p Hp). nra.
Qed.
Example C05_example : (* <(1..6), (2,2,...)> over rows or over singletons = 42 *)
  forall red n lns s s', legal_reduction exact red ->
  s = (fun l => match l with LVec 10 _ [i; j] => Some (IZR (3 * i + j + 1)) | LVec 11 _ _ => Some 2%R | _ => None end) ->
  dot exact lg6 red y6 x6 n = Ok lns -> launches_end lns s s' -> s' (LFut n) = Some 42%R.
Proof.
  intros red n lns s s' Hred Es H He.
  destruct (@C05_dot_is_sum lg6 red y6 x6 n lns s s' (fun p => match p with [i; j] => IZR (3 * i + j + 1) | _ => 0%R end) (fun _ => 2%R) lg6_ok Hred) as [E _].
  - exists 2, 10, 0. reflexivity.
  - exact H.
  - exact He.
  - subst s. intros p Hp. cbn in Hp. intuition (subst p; reflexivity).
  - subst s. intros p Hp. reflexivity.
  - rewrite E. f_equal. change (is_points lg6 (pv_space y6)) with grid6. unfold grid6. rewrite !Rsum_cons, Rsum_nil. cbn. lra.
Qed.
Lemma fold_right_legal T (A : arith T) : legal_reduction A (fun _ l => fold_right (aadd A) (a0 A) l).
Proof.
  intros n l. induction l as [|x l IH]; cbn; [constructor|]. apply red_node with (l1 := [x]) (l2 := l); [reflexivity|constructor|exact IH].
Qed.
Lemma fold_left_legal T (A : arith T) : legal_reduction A (fun _ l => fold_left (aadd A) l (a0 A)).
Proof.
  intros n l. induction l as [|x l IH] using rev_ind; cbn; [constructor|]. rewrite fold_left_app. cbn.
  apply red_node with (l1 := l) (l2 := [x]); [reflexivity|exact IH|constructor].
Qed.
Example C05_example_accepted : legal_reduction exact (fun _ l => fold_left (aadd exact) l (a0 exact)) /\
  exists lns, dot exact lg6 (fun _ l => fold_left (aadd exact) l (a0 exact)) y6 x6 7 = Ok lns.
Proof. split; [apply fold_left_legal|eexists; reflexivity]. Qed.

(** ** C06 *)
(** Equal bits, except possibly the sign of a zero. *)
Definition same_up_to_zero_sign (a b : f64) : Prop :=
  a = b \/ ((exists s, a = S754_zero s) /\ (exists s, b = S754_zero s)).
Lemma suz_refl a : same_up_to_zero_sign a a. Proof. left; reflexivity. Qed.
Lemma suz_sym a b : same_up_to_zero_sign a b -> same_up_to_zero_sign b a.
Proof. intros [->|[H1 H2]]; [left; reflexivity|right; auto]. Qed.
Lemma suz_trans a b c : same_up_to_zero_sign a b -> same_up_to_zero_sign b c -> same_up_to_zero_sign a c.
Proof.
  intros [->|[H1 [s2 H2]]]; [auto|]. intros [->|[H3 H4]]; right; split; auto. exists s2; exact H2.
Qed.
Section Ieee.
Variables fp fe : Z.
Lemma SFadd_comm (x y : f64) : SFadd fp fe x y = SFadd fp fe y x.
Proof.
  destruct x as [sx|sx| |sx mx ex], y as [sy|sy| |sy my ey]; try reflexivity.
  - destruct sx, sy; reflexivity.
  - destruct sx, sy; reflexivity.
  - unfold SFadd. rewrite (Z.min_comm ex ey), Z.add_comm. reflexivity.
Qed.
Lemma suz_add_l a b c : same_up_to_zero_sign a b -> same_up_to_zero_sign (SFadd fp fe a c) (SFadd fp fe b c).
Proof.
  intros [->|[[sa ->] [sb ->]]]; [apply suz_refl|]. destruct c as [sc|sc| |sc mc ec]; cbn; try apply suz_refl.
  right. split; [destruct (Bool.eqb sa sc); eexists; reflexivity|destruct (Bool.eqb sb sc); eexists; reflexivity].
Qed.
Lemma suz_add a b c d : same_up_to_zero_sign a b -> same_up_to_zero_sign c d -> same_up_to_zero_sign (SFadd fp fe a c) (SFadd fp fe b d).
Proof.
  intros H1 H2. eapply suz_trans; [apply suz_add_l; exact H1|]. rewrite (SFadd_comm b c), (SFadd_comm b d). apply suz_add_l. exact H2.
Qed.
Lemma suz_0_l x : same_up_to_zero_sign (SFadd fp fe f64_zero x) x.
Proof. destruct x as [[]|s| |s m e]; cbn; try apply suz_refl. right. split; eexists; reflexivity. Qed.
Lemma suz_0_r x : same_up_to_zero_sign (SFadd fp fe x f64_zero) x.
Proof. rewrite SFadd_comm. apply suz_0_l. Qed.
(** the only tree over at most two partials *)
Definition short_sum (l : list f64) : f64 :=
  match l with [] => f64_zero | [x] => x | [x; y] => SFadd fp fe x y | _ => f64_zero end.
Lemma short_reduction l r : reduces_to (ieee fp fe) l r -> length l <= 2 -> same_up_to_zero_sign r (short_sum l).
Proof.
  induction 1 as [|x|l l1 l2 x y Hp H1 IH1 H2 IH2]; intros Hl.
  - apply suz_refl.
  - apply suz_refl.
  - assert (L := Permutation_length Hp). rewrite app_length in L. specialize (IH1 ltac:(lia)). specialize (IH2 ltac:(lia)).
    eapply suz_trans; [apply (suz_add IH1 IH2)|].
    destruct l1 as [|a [|b [|c l1]]]; destruct l2 as [|d [|e [|f l2]]]; cbn [length] in L; try lia.
    + apply Permutation_sym, Permutation_nil in Hp. subst l. apply suz_refl.
    + cbn [app] in Hp. apply Permutation_sym, Permutation_length_1_inv in Hp. subst l. apply suz_0_l.
    + cbn [app] in Hp. apply Permutation_sym, Permutation_length_2_inv in Hp. destruct Hp as [->| ->]; cbn [short_sum]; [apply suz_0_l|].
      rewrite (SFadd_comm e d). apply suz_0_l.
    + cbn [app] in Hp. apply Permutation_sym, Permutation_length_1_inv in Hp. subst l. apply suz_0_r.
    + cbn [app] in Hp. apply Permutation_sym, Permutation_length_2_inv in Hp. destruct Hp as [->| ->]; cbn [short_sum]; [apply suz_refl|].
      rewrite (SFadd_comm d a). apply suz_refl.
    + cbn [app] in Hp. apply Permutation_sym, Permutation_length_2_inv in Hp. destruct Hp as [->| ->]; cbn [short_sum]; [apply suz_0_r|].
      rewrite (SFadd_comm b a). apply suz_0_r.
Qed.
End Ieee.
Lemma dot_future_any T (A : arith T) lg red v w n lns s s' : dot A lg red v w n = Ok lns -> launches_end lns s s' ->
  s' (LFut n) = red n (map (partial_dot A s v w) (pieces lg v)).
Proof.
  intros H He. assert (Hg := dot_good A lg red _ _ _ H). assert (E := launches_end_effect Hg He).
  assert (H2 := H). apply oassert_ok in H2. destruct H2 as [_ H2]. unfold obind in H2.
  match type of H2 with match ?m with _ => _ end = _ => destruct m as [ln| | |] eqn:Es; try discriminate end. injection H2 as <-.
  match type of H with _ = Ok [?a; ?b] => set (ln2 := b) in *; set (ln1 := a) in * end.
  destruct (@dot_effect _ A lg red v w n [ln1; ln2] (concat (ln_tasks ln1)) (concat (ln_tasks ln2)) H) with (s := s) as [D1 D2].
  { repeat constructor; apply interleave_concat. }
  rewrite E, effect_cons, !effect_one, <- run_app. exact D1.
Qed.
(** With a fixed reduction order the bits do not depend on the schedule (any entry type). *)
Theorem C06_schedule_independent : forall (T : Type) (A : arith T) (lg : legion) red v w n lns s s1 s2,
  dot A lg red v w n = Ok lns -> launches_end lns s s1 -> launches_end lns s s2 -> s1 (LFut n) = s2 (LFut n).
Proof. intros T A lg red v w n lns s s1 s2 H H1 H2. rewrite (dot_future_any A lg red v w n H H1), (dot_future_any A lg red v w n H H2). reflexivity. Qed.
(** In IEEE arithmetic (float, double), with at most two pieces the bits do not depend on the reduction order either. *)
Theorem C06_two_pieces_reproducible : forall (fp fe : Z) (lg : legion) r1 r2 v w n lns1 lns2 s s1 s2,
  legal_reduction (ieee fp fe) r1 -> legal_reduction (ieee fp fe) r2 -> length (pieces lg v) <= 2 ->
  dot (ieee fp fe) lg r1 v w n = Ok lns1 -> dot (ieee fp fe) lg r2 v w n = Ok lns2 ->
  launches_end lns1 s s1 -> launches_end lns2 s s2 -> same_up_to_zero_sign (s1 (LFut n)) (s2 (LFut n)).
Proof.
  intros fp fe lg r1 r2 v w n lns1 lns2 s s1 s2 R1 R2 Hl H1 H2 E1 E2.
  rewrite (dot_future_any (ieee fp fe) lg r1 v w n H1 E1), (dot_future_any (ieee fp fe) lg r2 v w n H2 E2).
  eapply suz_trans; [apply short_reduction; [apply R1|rewrite map_length; exact Hl]|].
  apply suz_sym. apply short_reduction; [apply R2|rewrite map_length; exact Hl].
Qed.
(** From three pieces on it does: (2^53 + 1) + 1 <> 2^53 + (1 + 1). *)
Definition lg3 : legion := mk_legion (fun s => if s =? 1 then [[0];[1];[2]]%Z else []) (fun q => if q =? 2 then 1 else 0)
  (fun q => q) (fun q => if q =? 2 then [[[0]];[[1]];[[2]]]%Z else []).
Definition v3 : pvec := mk_pvec 1 0 10 2 2.
Definition w3 : pvec := mk_pvec 1 0 11 2 2.
Definition s3 : store loc f64 := fun l => match l with
  | LVec 10 0 [0%Z] => f64_of_Z (2 ^ 53) | LVec _ _ _ => f64_of_Z 1 | _ => f64_zero end.
Lemma lg3_ok : legion_ok lg3.
Proof.
  split.
  - intros s. cbn. destruct (s =? 1); [nodup_points|constructor].
  - intros q piece. cbn. destruct (q =? 2) eqn:E2; [|intros []].
    cbn. intros [<-|[<-|[<-|[]]]]; (split; [nodup_points|intros p Hp; cbn in *; tauto]).
Qed.
Theorem C06_reduction_order_visible : exists (r1 r2 : nat -> list f64 -> f64) lns1 lns2 s1 s2,
  legal_reduction binary64 r1 /\ legal_reduction binary64 r2 /\ legion_ok lg3 /\ constructed lg3 v3 /\ constructed lg3 w3 /\
  dot binary64 lg3 r1 v3 w3 0 = Ok lns1 /\ dot binary64 lg3 r2 v3 w3 0 = Ok lns2 /\
  launches_end lns1 s3 s1 /\ launches_end lns2 s3 s2 /\
  s1 (LFut 0) = f64_of_Z (2 ^ 53) /\ s2 (LFut 0) = f64_of_Z (2 ^ 53 + 2).
Proof.
  set (r1 := fun (_ : nat) l => fold_left (aadd binary64) l (a0 binary64)). set (r2 := fun (_ : nat) l => fold_right (aadd binary64) (a0 binary64) l).
  exists r1, r2.
  assert (E1 : exists lns, dot binary64 lg3 r1 v3 w3 0 = Ok lns) by (eexists; reflexivity).
  assert (E2 : exists lns, dot binary64 lg3 r2 v3 w3 0 = Ok lns) by (eexists; reflexivity).
  destruct E1 as [l1 E1]. destruct E2 as [l2 E2]. destruct (some_end l1 s3) as [s1 S1]. destruct (some_end l2 s3) as [s2 S2].
  exists l1, l2, s1, s2. split; [apply fold_left_legal|]. split; [apply fold_right_legal|]. split; [apply lg3_ok|].
  split; [exists 2, 10, 0; reflexivity|]. split; [exists 2, 11, 0; reflexivity|].
  split; [exact E1|]. split; [exact E2|]. split; [exact S1|]. split; [exact S2|].
  rewrite (dot_future_any binary64 lg3 r1 v3 w3 0 E1 S1), (dot_future_any binary64 lg3 r2 v3 w3 0 E2 S2). split; vm_compute; reflexivity.
Qed.

(** ** C07 *)
(** A vector can be built on partition [q] exactly when it is disjoint and complete; otherwise an assertion fails. *)
Definition partition_disjoint (lg : legion) (q : nat) : Prop := forall c d pc pd p,
  nth_error (part_pieces lg q) c = Some pc -> nth_error (part_pieces lg q) d = Some pd -> In p pc -> In p pd -> c = d.
Definition partition_complete (lg : legion) (q : nat) : Prop := forall p, In p (is_points lg (part_parent lg q)) ->
  exists piece, In piece (part_pieces lg q) /\ In p piece.
Lemma disjoint_all_spec (ps : list (list point)) : disjoint_all ps = true <-> (forall c d pc pd p,
  nth_error ps c = Some pc -> nth_error ps d = Some pd -> In p pc -> In p pd -> c = d).
Proof.
  induction ps as [|a ps IH]; cbn [disjoint_all].
  - split; [intros _ [|c] d pc pd p H; discriminate|reflexivity].
  - rewrite andb_true_iff, forallb_forall, IH. split.
    + intros [H1 H2] c d pc pd p Hc Hd Hpc Hpd.
      assert (X : forall k pk, nth_error ps k = Some pk -> In p a -> In p pk -> False).
      { intros k pk Hk Ha Hpk. specialize (H1 p Ha). rewrite forallb_forall in H1. specialize (H1 pk (nth_error_In _ _ Hk)).
        apply negb_true_iff, mem_false in H1. contradiction. }
      destruct c as [|c], d as [|d]; cbn in Hc, Hd.
      * reflexivity.
      * injection Hc as <-. exfalso. apply (X d pd); assumption.
      * injection Hd as <-. exfalso. apply (X c pc); assumption.
      * f_equal. apply (H2 c d pc pd p); assumption.
    + intros H. split.
      * intros p Hp. rewrite forallb_forall. intros other Ho. apply negb_true_iff, mem_false. intros Hpo.
        apply In_nth_error in Ho. destruct Ho as [k Hk]. assert (E := H 0 (S k) a other p eq_refl Hk Hp Hpo). discriminate.
      * intros c d pc pd p Hc Hd Hpc Hpd. assert (E := H (S c) (S d) pc pd p Hc Hd Hpc Hpd). congruence.
Qed.
Lemma is_complete_spec lg q : is_complete lg q = true <-> partition_complete lg q.
Proof.
  unfold is_complete, partition_complete. rewrite forallb_forall. split; intros H p Hp.
  - specialize (H p Hp). apply existsb_exists in H. destruct H as [piece [H1 H2]]. exists piece. split; [exact H1|apply mem_spec; exact H2].
  - apply existsb_exists. destruct (H p Hp) as [piece [H1 H2]]. exists piece. split; [exact H1|apply mem_spec; exact H2].
Qed.
Theorem C07_vector_needs_complete_disjoint_partition : forall (lg : legion) (q region fid : nat),
  ((exists v, make_vector lg q region fid = Ok v) <-> partition_disjoint lg q /\ partition_complete lg q) /\
  (~ (partition_disjoint lg q /\ partition_complete lg q) -> make_vector lg q region fid = AssertFail).
Proof.
  intros lg q region fid. unfold partition_disjoint. rewrite <- (disjoint_all_spec (part_pieces lg q)), <- is_complete_spec.
  unfold make_vector, is_disjoint. destruct (disjoint_all (part_pieces lg q)); cbn [oassert].
  - destruct (is_complete lg q); cbn [oassert].
    + split; [split; [auto|intros _; eexists; reflexivity]|intros H; exfalso; auto].
    + split; [split; [intros [v H]; discriminate|intros [_ H]; discriminate]|reflexivity].
  - split; [split; [intros [v H]; discriminate|intros [H _]; discriminate]|reflexivity].
Qed.
(** A binary operation on vectors with different index space, colour space or partition is rejected, so nothing
    is issued and nothing modified; on vectors with the same layout (and different storage) it is accepted. *)
Definition compatible_layout (v w : pvec) : Prop :=
  pv_space v = pv_space w /\ pv_colors v = pv_colors w /\ pv_part v = pv_part w.
Lemma same_layout_spec v w : same_layout v w = true <-> compatible_layout v w.
Proof. unfold same_layout, compatible_layout. rewrite !andb_true_iff, !Nat.eqb_eq. tauto. Qed.
Theorem C07_incompatible_operands_rejected : forall (T : Type) (A : arith T) (lg : legion) red (y x : pvec) (fs : list nat) (n : nat),
  ~ compatible_layout y x ->
  copy A lg y x = AssertFail /\ axpy A lg y fs x = AssertFail /\ xpay A lg y fs x = AssertFail /\ dot A lg red y x n = AssertFail.
Proof.
  intros T A lg red y x fs n H. assert (E : same_layout y x = false).
  { destruct (same_layout y x) eqn:E; [|reflexivity]. apply same_layout_spec in E. contradiction. }
  unfold copy, axpy, xpay, dot. rewrite E. auto.
Qed.
Theorem C07_compatible_operands_accepted : forall (T : Type) (A : arith T) (lg : legion) red (y x : pvec) (fs : list nat) (n : nat),
  compatible_layout y x -> distinct_storage y x -> length fs <= 4 ->
  (exists ln, copy A lg y x = Ok ln) /\ (exists ln, axpy A lg y fs x = Ok ln) /\ (exists ln, xpay A lg y fs x = Ok ln) /\
  (exists lns, dot A lg red y x n = Ok lns).
Proof.
  intros T A lg red y x fs n Hl Hd Hf. apply same_layout_spec in Hl.
  assert (Hi : forall p1 p2 P1 P2, interfering [mk_req (pv_region y) (pv_fid y) P1 p1; mk_req (pv_region x) (pv_fid x) P2 p2] = false).
  { intros p1 p2 P1 P2. cbn. unfold reqs_alias. cbn. destruct Hd as [E|E]; apply Nat.eqb_neq in E; rewrite E; [reflexivity|]. rewrite andb_false_r. reflexivity. }
  assert (Hj : forall p1 p2 P1 P2, interfering [mk_req (pv_region x) (pv_fid x) P1 p1; mk_req (pv_region y) (pv_fid y) P2 p2] = false).
  { intros p1 p2 P1 P2. cbn. unfold reqs_alias. cbn. rewrite (Nat.eqb_sym (pv_region x)), (Nat.eqb_sym (pv_fid x)).
    destruct Hd as [E|E]; apply Nat.eqb_neq in E; rewrite E; [reflexivity|]. rewrite andb_false_r. reflexivity. }
  unfold copy, axpy, xpay, dot, alpha_ok. rewrite Hl, (proj2 (Nat.leb_le _ _) Hf). cbn [oassert]. unfold submit, get_requirement. cbn [ln_reqs].
  rewrite !Hi, !Hj. cbn [obind]. repeat split; eexists; reflexivity.
Qed.
(** Two vectors on the same space with different partitions: rejected; a partition missing a point: no vector. *)
Example C07_example :
  (exists v, make_vector lg6 3 11 0 = Ok v /\ copy exact lg6 y6 v = AssertFail) /\
  compatible_layout y6 x6 /\ distinct_storage y6 x6 /\
  make_vector (mk_legion (fun _ => grid6) (fun _ => 1) (fun q => q) (fun _ => [[[0;0];[0;1]]]%Z)) 2 10 0 = AssertFail.
Proof. split; [eexists; split; reflexivity|]. split; [repeat split|]. split; [left; discriminate|reflexivity]. Qed.
