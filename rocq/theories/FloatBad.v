(** FloatBad: infinities and NaNs propagate through the planner operations in IEEE arithmetic (the counterpart of UndefFacts.v). *)
From Coq Require Import Lia ZArith.
From Coq Require Import Floats.SpecFloat.
From Verif Require Import Base Index Outcome Sched Async Arith Launch Vector PartitionSpec VectorFacts LaunchFacts Matrix MatrixSpec MatrixFacts
  MatvecFacts Builder BuilderFacts Exec Planner PlannerFacts PlannerSetup Solvers PropsVector PropsMatrix PropsPlanner PropsSolver SolverFacts
  Float FloatPlanner.
Set Implicit Arguments.

(** plus or minus zero; an infinity or not a number *)
Definition is_zero (x : spec_float) : Prop := match x with S754_zero _ => True | _ => False end.
Definition bad (x : spec_float) : Prop := ~ is_number x.
Definition zero_or_nan (x : spec_float) : Prop := match x with S754_zero _ | S754_nan => True | _ => False end.

Section Arith.
Variables p e : Z.
Lemma bad_add_l x y : bad x -> bad (SFadd p e x y).
Proof. unfold bad. destruct x as [sx|sx| |sx mx ex], y as [sy|sy| |sy my ey]; cbn; try tauto; destruct (Bool.eqb sx sy); cbn; tauto. Qed.
Lemma bad_add_r x y : bad y -> bad (SFadd p e x y).
Proof. unfold bad. destruct x as [sx|sx| |sx mx ex], y as [sy|sy| |sy my ey]; cbn; try tauto; destruct (Bool.eqb sx sy); cbn; tauto. Qed.
Lemma bad_mul_l x y : bad x -> bad (SFmul p e x y).
Proof. unfold bad. destruct x, y; cbn; tauto. Qed.
Lemma bad_mul_r x y : bad y -> bad (SFmul p e x y).
Proof. unfold bad. destruct x, y; cbn; tauto. Qed.
Lemma bad_div_l x y : bad x -> bad (SFdiv p e x y).
Proof. unfold bad. destruct x, y; cbn; tauto. Qed.
Lemma bad_div_zero x y : is_zero y -> bad (SFdiv p e x y).
Proof. unfold bad. destruct x, y; cbn; tauto. Qed.
Lemma bad_fma_1 x y z : bad x -> bad (sf_fma p e x y z).
Proof. intros H. destruct x as [| | |]; try (exfalso; apply H; exact I); destruct y, z; apply bad_add_l; apply bad_mul_l; exact H. Qed.
Lemma bad_fma_2 x y z : bad y -> bad (sf_fma p e x y z).
Proof. intros H. destruct y as [| | |]; try (exfalso; apply H; exact I); destruct x, z; apply bad_add_l; apply bad_mul_r; exact H. Qed.
Lemma bad_fma_3 x y z : bad z -> bad (sf_fma p e x y z).
Proof. intros H. destruct z as [| | |]; try (exfalso; apply H; exact I); destruct x, y; try (apply bad_add_r; exact H); exact H. Qed.
Lemma zn_mul_l x y : is_zero x -> zero_or_nan (SFmul p e x y).
Proof. unfold zero_or_nan. destruct x, y; cbn; tauto. Qed.
Lemma zn_mul_r x y : is_zero y -> zero_or_nan (SFmul p e x y).
Proof. unfold zero_or_nan. destruct x, y; cbn; tauto. Qed.
Lemma zn_add x y : zero_or_nan x -> zero_or_nan y -> zero_or_nan (SFadd p e x y).
Proof. unfold zero_or_nan. destruct x as [sx| | |], y as [sy| | |]; cbn; try tauto. destruct (Bool.eqb sx sy); cbn; tauto. Qed.
Lemma bad_div_zn x y : zero_or_nan y -> bad (SFdiv p e x y).
Proof. unfold zero_or_nan, bad. destruct x, y; cbn; tauto. Qed.
(** sums in any bracketing *)
Lemma bad_reduces l x : reduces_to (ieee p e) l x -> forall y, In y l -> bad y -> bad x.
Proof.
  intros H. induction H as [|x|l l1 l2 x y Hp H1 IH1 H2 IH2]; intros z Hz Hb; [destruct Hz|destruct Hz as [->|[]]; exact Hb|].
  apply (Permutation_in _ Hp) in Hz. apply in_app_iff in Hz. cbn [ieee aadd]. destruct Hz as [Hz|Hz]; [apply bad_add_l; apply (IH1 z Hz Hb)|apply bad_add_r; apply (IH2 z Hz Hb)].
Qed.
Lemma zn_reduces l x : reduces_to (ieee p e) l x -> (forall y, In y l -> zero_or_nan y) -> zero_or_nan x.
Proof.
  intros H. induction H as [|x|l l1 l2 x y Hp H1 IH1 H2 IH2]; intros Hz; [exact I|apply Hz; left; reflexivity|].
  cbn [ieee aadd]. apply zn_add; [apply IH1|apply IH2]; intros z Hin; apply Hz; (eapply Permutation_in; [symmetry; exact Hp|]); apply in_or_app; tauto.
Qed.
Lemma bad_fold ds : forall d, (bad d \/ exists y, In y ds /\ bad y) -> bad (fold_left (SFadd p e) ds d).
Proof.
  induction ds as [|y ds IH]; intros d H; cbn [fold_left]; [destruct H as [H|(y & [] & _)]; exact H|]. apply IH.
  destruct H as [H|(z & [->|Hz] & Hb)]; [left; apply bad_add_l; exact H|left; apply bad_add_r; exact Hb|right; exists z; auto].
Qed.
Lemma zn_fold ds : forall d, zero_or_nan d -> (forall y, In y ds -> zero_or_nan y) -> zero_or_nan (fold_left (SFadd p e) ds d).
Proof. induction ds as [|y ds IH]; intros d Hd H; cbn [fold_left]; [exact Hd|]. apply IH; [apply zn_add; [exact Hd|apply H; left; reflexivity]|]. intros z Hz. apply H. right. exact Hz. Qed.
End Arith.

Section Ops.
Variables p e : Z.
Variable lg : legion.
Hypothesis Hlg : legion_ok lg.
Variable red : nat -> list spec_float -> spec_float.
Notation A := (ieee p e).
Hypothesis Hred : legal_reduction A red.
Variable cs : list (setup_call spec_float).
Variable nw : nat.
Variable pl : planner spec_float.
Hypothesis Hw : working lg cs nw pl.
Notation n := (length (sols_of cs)).
Notation U := (unknowns lg cs).
Notation store := (store loc spec_float).
Notation ent := (entry pl).

Definition badv (s : store) (vi : nat) : Prop := forall u, In u U -> bad (ent s vi u).
Definition zerov (s : store) (vi : nat) : Prop := forall u, In u U -> is_zero (ent s vi u).
Definition same_but (vi : nat) (s s' : store) : Prop :=
  (forall vj u, vj < 2 + nw -> vj <> vi -> In u U -> ent s' vj u = ent s vj u) /\ (forall k, s' (LFut k) = s (LFut k)).
Definition same_old (st : ist) (s s' : store) : Prop :=
  (forall vj u, ent s' vj u = ent s vj u) /\ (forall k, k < next_fut st -> s' (LFut k) = s (LFut k)).
Lemma in_U i q : In (i, q) U <-> i < n /\ In q (pts lg pl i).
Proof. apply (in_unknowns_pts Hw). Qed.
Lemma updates_same vi g s s' : vi < 2 + nw -> updates lg pl n vi g s s' -> same_but vi s s' /\ forall u, In u U -> ent s' vi u = g (fst u) (snd u).
Proof.
  intros Hv [U1 U2]. destruct (working_ready Hw) as [R _]. split; [split|].
  - intros vj [i q] Hj Hne Hu. apply in_U in Hu. unfold entry. cbn [fst snd]. apply U2. apply (other_cell R); auto; apply Hu.
  - intros k. apply U2. apply fut_not_in.
  - intros [i q] Hu. apply in_U in Hu. apply U1; apply Hu.
Qed.
Lemma frame_same st s s' : frame_fut st s s' -> same_old st s s'.
Proof. intros H. split; [intros vj u; apply (frame_fut_cell _ _ _ _ H)|intros k Hk; apply (frame_fut_old H Hk)]. Qed.
Lemma wpb_scalar args f (Q : nat -> ist -> store -> Prop) st s :
  (forall s', s' (LFut (next_fut st)) = f (map (fun k => s (LFut k)) args) -> same_old st s s' -> Q (next_fut st) (next st) s') -> wp (scalar_task args f) Q st s.
Proof. intros HQ. apply wp_scalar_task. intros s' E F. apply HQ; [exact E|]. apply frame_same. apply task_frame. exact F. Qed.
Lemma wpb_copy vi vj (Q : unit -> ist -> store -> Prop) st s : vi < 2 + nw -> vj < 2 + nw -> vi <> vj ->
  (forall s', (forall u, In u U -> ent s' vi u = ent s vj u) -> same_but vi s s' -> Q tt st s') -> wp (pl_copy A lg pl vi vj) Q st s.
Proof.
  intros Hv Hj Hne HQ. destruct (working_ready Hw) as [R _]. apply (wp_copy A Hlg R); [exact Hv|exact Hj|exact Hne|]. intros s' Hu.
  destruct (updates_same Hv Hu) as [K V]. apply HQ; [exact V|exact K].
Qed.
Lemma wpb_zero vi (Q : unit -> ist -> store -> Prop) st s : vi < 2 + nw ->
  (forall s', same_but vi s s' -> Q tt st s') -> wp (pl_zero_fill A lg pl vi) Q st s.
Proof. intros Hv HQ. destruct (working_ready Hw) as [R _]. apply (wp_zero_fill A Hlg R); [exact Hv|]. intros s' Hu. apply HQ. apply (updates_same Hv Hu). Qed.
Lemma wpb_scal vi f (Q : unit -> ist -> store -> Prop) st s : vi < 2 + nw ->
  (forall s', (forall u, In u U -> ent s' vi u = SFmul p e (s (LFut f)) (ent s vi u)) -> same_but vi s s' -> Q tt st s') -> wp (pl_scal A lg pl vi f) Q st s.
Proof.
  intros Hv HQ. destruct (working_ready Hw) as [R _]. apply (wp_scal A Hlg R); [exact Hv|]. intros s' Hu. destruct (updates_same Hv Hu) as [K V]. apply HQ; [exact V|exact K].
Qed.
Lemma wpb_axpy vi fs vj (Q : unit -> ist -> store -> Prop) st s : vi < 2 + nw -> vj < 2 + nw -> vi <> vj -> length fs <= 4 ->
  (forall s', (forall u, In u U -> ent s' vi u = sf_fma p e (alpha_of A s fs) (ent s vj u) (ent s vi u)) -> same_but vi s s' -> Q tt st s') -> wp (pl_axpy A lg pl vi fs vj) Q st s.
Proof.
  intros Hv Hj Hne Hfs HQ. destruct (working_ready Hw) as [R _]. apply (wp_axpy A Hlg R); [exact Hv|exact Hj|exact Hne|exact Hfs|]. intros s' Hu.
  destruct (updates_same Hv Hu) as [K V]. apply HQ; [exact V|exact K].
Qed.
Lemma wpb_xpay vi fs vj (Q : unit -> ist -> store -> Prop) st s : vi < 2 + nw -> vj < 2 + nw -> vi <> vj -> length fs <= 4 ->
  (forall s', (forall u, In u U -> ent s' vi u = sf_fma p e (alpha_of A s fs) (ent s vi u) (ent s vj u)) -> same_but vi s s' -> Q tt st s') -> wp (pl_xpay A lg pl vi fs vj) Q st s.
Proof.
  intros Hv Hj Hne Hfs HQ. destruct (working_ready Hw) as [R _]. apply (wp_xpay A Hlg R); [exact Hv|exact Hj|exact Hne|exact Hfs|]. intros s' Hu.
  destruct (updates_same Hv Hu) as [K V]. apply HQ; [exact V|exact K].
Qed.
Lemma wpb_matvec vi vj (Q : unit -> ist -> store -> Prop) st s : vi < 2 + nw -> vj < 2 + nw -> vi <> vj ->
  (forall s', same_but vi s s' -> Q tt st s') -> wp (pl_matvec A lg pl vi vj) Q st s.
Proof. intros Hv Hj Hne HQ. destruct (working_ready Hw) as [R _]. apply (wp_matvec Hlg R); auto. intros s' Hu. apply HQ. apply (updates_same Hv Hu). Qed.
(** dot products *)
Lemma bad_dot_loop : forall (l : list point) (f g : point -> spec_float) acc, (bad acc \/ exists q, In q l /\ (bad (f q) \/ bad (g q))) -> bad (dot_loop A acc (flat_map (fun q => [f q; g q]) l)).
Proof.
  induction l as [|q l IH]; intros f g acc H; cbn [flat_map app dot_loop]; [destruct H as [H|(y & [] & _)]; exact H|]. apply IH. cbn [ieee aadd amul].
  destruct H as [H|(z & [->|Hz] & Hb)]; [left; apply bad_add_l; exact H| |right; exists z; auto]. left. apply bad_add_r. destruct Hb; [apply bad_mul_l|apply bad_mul_r]; assumption.
Qed.
Lemma zn_dot_loop : forall (l : list point) (f g : point -> spec_float) acc, zero_or_nan acc -> (forall q, In q l -> is_zero (f q) \/ is_zero (g q)) -> zero_or_nan (dot_loop A acc (flat_map (fun q => [f q; g q]) l)).
Proof.
  induction l as [|q l IH]; intros f g acc Ha H; cbn [flat_map app dot_loop]; [exact Ha|]. apply IH; [|intros z Hz; apply H; right; exact Hz]. cbn [ieee aadd amul].
  apply zn_add; [exact Ha|]. destruct (H q (or_introl eq_refl)); [apply zn_mul_l|apply zn_mul_r]; assumption.
Qed.
Lemma bad_dot_value s vi vj d u : vi < 2 + nw -> vj < 2 + nw -> In u U -> (bad (ent s vi u) \/ bad (ent s vj u)) -> dot_value A lg red pl n s vi vj d -> bad d.
Proof.
  intros Hv Hj Hu Hb [d0 [ds [-> D]]]. destruct u as [i q]. apply in_U in Hu. destruct Hu as [Hi Hq]. destruct (working_ready Hw) as [R _].
  assert (Hin : In i (seq 0 n)) by (apply in_seq; lia).
  assert (G : exists di, In di (d0 :: ds) /\ component_value A lg red pl s vi vj i di).
  { revert D Hin. generalize (seq 0 n), (d0 :: ds). intros l l'. induction 1 as [|k dk l l' Hk Hl IH]; intros Hin; [destruct Hin|destruct Hin as [->|Hi']]; [exists dk; split; [left; reflexivity|exact Hk]|]. destruct (IH Hi') as (di & I1 & I2). exists di. split; [right; exact I1|exact I2]. }
  destruct G as (di & I1 & [m ->]).
  assert (B : bad (red m (map (partial_dot A s (vec pl vi i) (vec pl vj i)) (pieces lg (vec pl vi i))))).
  { assert (Pm := constructed_perm Hlg (rd_constructed R Hv Hi)). rewrite (vec_space R Hv Hi) in Pm. apply (Permutation_in q (Permutation_sym Pm)) in Hq. apply in_concat in Hq. destruct Hq as (piece & Q1 & Q2).
    apply (@bad_reduces p e _ _ (Hred m _) (partial_dot A s (vec pl vi i) (vec pl vj i) piece)); [apply in_map; exact Q1|]. unfold partial_dot. apply bad_dot_loop. right. exists q. split; [exact Q2|]. exact Hb. }
  cbn [ieee aadd]. apply bad_fold. destruct I1 as [E1|I1]; [left; rewrite E1; exact B|right]. eexists. split; [exact I1|exact B].
Qed.
Lemma zn_dot_value s vi vj d : vi < 2 + nw -> vj < 2 + nw -> (forall u, In u U -> is_zero (ent s vi u) \/ is_zero (ent s vj u)) -> dot_value A lg red pl n s vi vj d -> zero_or_nan d.
Proof.
  intros Hv Hj Hz [d0 [ds [-> D]]]. destruct (working_ready Hw) as [R _].
  assert (G : forall di, In di (d0 :: ds) -> zero_or_nan di).
  { assert (Hs : forall i, In i (seq 0 n) -> i < n) by (intros i Hi; apply in_seq in Hi; lia). revert D Hs. generalize (seq 0 n), (d0 :: ds). intros l l'.
    induction 1 as [|k dk l l' Hk Hl IH]; intros Hs di Hdi; [destruct Hdi|]. destruct Hdi as [<-|Hdi]; [|apply IH; [intros i Hi; apply Hs; right; exact Hi|exact Hdi]].
    destruct Hk as [m ->]. apply (zn_reduces (Hred m _)). intros y Hy. apply in_map_iff in Hy. destruct Hy as (piece & <- & Hp). unfold partial_dot. apply zn_dot_loop; [exact I|]. intros q Hq.
    assert (Hi : k < n) by (apply Hs; left; reflexivity). assert (Pm := constructed_perm Hlg (rd_constructed R Hv Hi)). rewrite (vec_space R Hv Hi) in Pm.
    apply (Hz (k, q)). apply in_U. split; [exact Hi|]. eapply Permutation_in; [exact Pm|]. apply in_concat. exists piece. auto. }
  cbn [ieee aadd]. apply zn_fold; [apply G; left; reflexivity|]. intros y Hy. apply G. right. exact Hy.
Qed.
Lemma wpb_dot vi vj (Q : nat -> ist -> store -> Prop) st s : 0 < n -> vi < 2 + nw -> vj < 2 + nw ->
  (forall f st' s', next_fut st <= f -> f < next_fut st' -> dot_value A lg red pl n s vi vj (s' (LFut f)) -> same_old st s s' -> Q f st' s') -> wp (pl_dot A lg red pl vi vj) Q st s.
Proof.
  intros Hn Hv Hj HQ. destruct (working_ready Hw) as [R _]. apply (wp_dot R); [exact Hn|exact Hv|exact Hj|].
  intros f st' s' H1 H2 H3 H4 H5. apply HQ; auto. apply frame_same; exact H4.
Qed.
End Ops.
(** entries through the operations in between; values of futures *)
Ltac ent_back side :=
  repeat match goal with
  | K : same_but _ _ _ ?pl _ ?s ?s2 |- context [entry ?pl ?s2 ?vj ?u] => rewrite (proj1 K vj u) by (first [side | assumption])
  | K : same_old _ _ ?s ?s2 |- context [entry ?pl ?s2 ?vj ?u] => rewrite (proj1 K vj u)
  end.
Ltac fut_back :=
  repeat match goal with
  | K : same_but _ _ _ _ _ ?s ?s2 |- context [?s2 (LFut ?k)] => rewrite (proj2 K k)
  | K : same_old _ _ ?s ?s2 |- context [?s2 (LFut ?k)] => rewrite (proj2 K k) by (cbn [next next_fut] in *; lia)
  end.
