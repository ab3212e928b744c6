(** FloatGMRES: one GMRES cycle in IEEE arithmetic, as formulas (C83). *)
From Coq Require Import Reals Lra Lia ZArith.
From Coq Require Import Floats.SpecFloat.
From Flocq Require Import Core.
From Verif Require Import Base Index Outcome Sched Async Arith Launch Vector PartitionSpec VectorFacts LaunchFacts Matrix MatrixSpec MatrixFacts
  MatvecFacts Builder BuilderFacts Exec ExactSum LinAlg Planner PlannerFacts PlannerSetup Solvers PropsVector PropsMatrix PropsPlanner PropsSolver SolverFacts PropsCG PropsCGConv
  Float FloatSum PropsFloat FloatPlanner FloatCGSpec PropsFloatCG FloatOps FloatBiCGSpec FloatBiCG PropsFloatScalar FloatGMRESSpec.
Set Implicit Arguments.
Local Open Scope R_scope.

Section Cycle.
Variables p e : Z.
Notation rnd := (round radix2 (SpecFloat.fexp p e) ZnearestE).
Lemma rnd_0 : rnd 0 = 0.
Proof. apply round_0. apply valid_rnd_N. Qed.
Hypothesis Hpe : format p e.
Variable P : Type.
Variable U : list P.
Variables a mag : P -> P -> R.
Variable count : P -> nat.
Variable u0 : P.
Hypothesis Hu0 : In u0 U.
Variable b : P -> spec_float.
Hypothesis Fb : forall u, In u U -> is_float p e (b u).
Variables neg1 one : spec_float.
Hypothesis Fn : is_float p e neg1.
Hypothesis En : fvalue neg1 = -1.
Hypothesis F1 : is_float p e one.
Hypothesis E1 : fvalue one = 1.
Notation near := (near_product p e U a mag count).
Notation dots := (dot_terms U).
Notation scale d := (SFdiv p e one (SFsqrt p e d)).
(** the formulas of a cycle with [m] basis vectors, of which [J] columns have been computed, whether or not the values are finite *)
Record gform (m : nat) (x : P -> spec_float) (J : nat) (t : fcycle P) : Prop := mk_gform {
  gf_ax : near x (fg_ax t);
  gf_r : forall u, fg_r t u = sf_fma p e neg1 (fg_ax t u) (b u);
  gf_rr : approx p e False (dots (fg_r t) (fg_r t)) (fg_rr t);
  gf_q0 : forall u, fg_q t 0 u = SFmul p e (scale (fg_rr t)) (fg_r t u);
  gf_w0 : forall j, (j < J)%nat -> near (fg_q t j) (fg_w t j 0);
  gf_h : forall j k, (j < J)%nat -> (k <= j)%nat -> approx p e False (dots (fg_q t k) (fg_w t j k)) (fg_h t k j);
  gf_w : forall j k u, (j < J)%nat -> (k <= j)%nat -> fg_w t j (S k) u = sf_fma p e (SFopp (fg_h t k j)) (fg_q t k u) (fg_w t j k u);
  gf_d : forall j, (j < J)%nat -> approx p e False (dots (fg_w t j (S j)) (fg_w t j (S j))) (fg_d t j);
  gf_n : forall j, (j < J)%nat -> fg_h t (S j) j = SFsqrt p e (fg_d t j);
  gf_q : forall j u, (j < J)%nat -> (S j < m)%nat -> fg_q t (S j) u = SFmul p e (scale (fg_d t j)) (fg_w t j (S j) u) }.
Definition gsum (x : P -> spec_float) (t : fcycle P) : Prop :=
  (forall u, fg_x t 0 u = x u) /\ forall j u, fg_x t (S j) u = sf_fma p e one (fg_q t j u) (fg_x t j u).
(** every quantity is a float *)
Lemma gform_float m x J t : (forall u, In u U -> is_float p e (x u)) -> gform m x J t ->
  (forall u, In u U -> is_float p e (fg_ax t u)) /\ (forall u, In u U -> is_float p e (fg_r t u)) /\ is_float p e (fg_rr t) /\
  (forall j, (j < J)%nat -> is_float p e (fg_d t j)) /\ (forall j k, (j < J)%nat -> (k <= j)%nat -> is_float p e (fg_h t k j)) /\
  (forall j u, (j <= J)%nat -> (j < m \/ j = 0)%nat -> In u U -> is_float p e (fg_q t j u)) /\ (forall j k u, (j < J)%nat -> (J <= m)%nat -> (k <= S j)%nat -> In u U -> is_float p e (fg_w t j k u)).
Proof.
  destruct Hpe as [Hp He]. intros Fx [G1 G2 G3 G4 G5 G6 G7 G8 G9 G10].
  assert (A1 : forall u, In u U -> is_float p e (fg_ax t u)) by (intros u Hu; apply (G1 u Hu)).
  assert (A2 : forall u, In u U -> is_float p e (fg_r t u)) by (intros u Hu; rewrite G2; apply fma_float; auto).
  assert (A3 : is_float p e (fg_rr t)) by apply G3.
  assert (A4 : forall j, (j < J)%nat -> is_float p e (fg_d t j)) by (intros j Hj; apply (G8 j Hj)).
  assert (A5 : forall j k, (j < J)%nat -> (k <= j)%nat -> is_float p e (fg_h t k j)) by (intros j k Hj Hk; apply (G6 j k Hj Hk)).
  assert (A67 : forall j, (j <= J)%nat -> (forall i u, (i <= j)%nat -> (i < m \/ i = 0)%nat -> In u U -> is_float p e (fg_q t i u)) /\ (forall k i u, (i < j)%nat -> (J <= m)%nat -> (k <= S i)%nat -> In u U -> is_float p e (fg_w t i k u))).
  { induction j as [|j IH]; intros Hj.
    - split; [|intros; lia]. intros i u Hi _ Hu. replace i with 0%nat by lia. rewrite G4. apply mul_float; auto. apply div_float; auto. apply sqrt_float; auto.
    - destruct (IH ltac:(lia)) as [Q W].
      assert (W' : forall k u, (J <= m)%nat -> (k <= S j)%nat -> In u U -> is_float p e (fg_w t j k u)).
      { intros k. induction k as [|k IHk]; intros u HJ Hk Hu; [apply (G5 j ltac:(lia) u Hu)|]. rewrite G7 by lia. apply fma_float; auto; [apply opp_float; apply A5; lia|apply Q; [lia|lia|exact Hu]|apply IHk; [lia|lia|exact Hu]]. }
      split.
      + intros i u Hi Hm Hu. destruct (Nat.eq_dec i (S j)) as [-> |Ne]; [|apply Q; [lia|exact Hm|exact Hu]].
        assert (Hm' : (S j < m)%nat) by lia. rewrite G10 by lia. apply mul_float; auto; [apply div_float; auto; apply sqrt_float; auto; apply A4; lia|].
        clear - G5 G7 Q A5 Hm' Hj Hu Hp He.
        assert (W' : forall k, (k <= S j)%nat -> is_float p e (fg_w t j k u)).
        { induction k as [|k IHk]; intros Hk; [apply (G5 j ltac:(lia) u Hu)|]. rewrite G7 by lia. apply fma_float; auto; [apply opp_float; apply A5; lia|apply Q; [lia|lia|exact Hu]|apply IHk; lia]. }
        apply W'. lia.
      + intros k i u Hi HJ Hk Hu. destruct (Nat.eq_dec i j) as [-> |Ne]; [apply W'; assumption|apply W; [lia|exact HJ|exact Hk|exact Hu]]. }
  repeat split; auto.
  - intros j u Hj Hm Hu. apply (proj1 (A67 j Hj) j u (le_n j) Hm Hu).
  - intros j k u Hj HJ Hk Hu. apply (proj2 (A67 J (le_n J)) k j u Hj HJ Hk Hu).
Qed.
Definition numbers (f : P -> spec_float) : Prop := forall u, In u U -> is_number (f u).
Lemma normalised_of f s q : (forall u, In u U -> is_float p e (f u)) -> approx p e False (dots f f) s -> (forall u, q u = SFmul p e (scale s) (f u)) -> numbers q ->
  numbers f /\ normalised p e U f s q.
Proof.
  destruct Hpe as [Hp He]. intros Ff Hs Hq Nq. assert (Fs : is_float p e s) by apply Hs. assert (Fy : is_float p e (SFsqrt p e s)) by (apply sqrt_float; assumption).
  assert (Fc : is_float p e (scale s)) by (apply div_float; assumption).
  assert (G : forall u, In u U -> is_number (scale s) /\ is_number (f u) /\ fvalue (q u) = rnd (fvalue (scale s) * fvalue (f u))).
  { intros u Hu. assert (N := Nq u Hu). rewrite Hq in N. destruct (mul_value Hp He Fc (Ff u Hu) N) as (A & B & C). rewrite Hq. auto. }
  split; [intros u Hu; apply (G u Hu)|]. destruct (G u0 Hu0) as (Nc & _ & _).
  assert (Rq : forall u, In u U -> rounded p e (fvalue (scale s) * fvalue (f u)) (q u)).
  { intros u Hu. destruct (G u Hu) as (_ & _ & E). split; [rewrite Hq; apply mul_float; auto|]. split; [apply Nq; exact Hu|]. rewrite E. apply rnd_error; assumption. }
  destruct (div_cases Hp He F1 Fy Nc) as [_ [(N1 & N2 & N3)|(N1 & N2)]].
  - left. destruct (sqrt_value Hp He Fs N1) as (Ns & Ps & Es). split; [apply summed_of_approx; assumption|]. split.
    + destruct (Rle_lt_or_eq_dec _ _ Ps) as [L|L]; [exact L|]. exfalso. apply N2. rewrite Es, <- L, sqrt_0. apply rnd_0.
    + exists (SFsqrt p e s), (scale s). split; [split; [exact Fy|split; [exact N1|rewrite Es; apply rnd_error; assumption]]|]. split; [exact N2|]. split.
      * split; [exact Fc|]. split; [exact Nc|]. rewrite N3, E1. apply rnd_error; assumption.
      * exact Rq.
  - right. split.
    + intros Ns. apply N1. destruct (Rle_or_lt 0 (fvalue s)) as [L|L]; [apply sqrt_number; [split; assumption|assumption|assumption|assumption]|].
      exfalso. destruct s as [sg|sg| |sg ms es]; [cbn in L; lra|exact Ns|exact Ns|]. destruct sg.
      * cbn [SFsqrt] in Nc. destruct one; exact Nc.
      * apply (Rlt_irrefl 0). eapply Rle_lt_trans; [|exact L]. cbn [fvalue]. apply Rmult_le_pos; [|left; apply powerRZ_lt; lra]. rewrite Rmult_1_l. apply IZR_le. lia.
    + intros u Hu. destruct (G u Hu) as (_ & _ & E). split; [rewrite Hq; apply mul_float; auto|]. split; [apply Nq; exact Hu|]. rewrite E, N2, Rmult_0_l. apply rnd_0.
Qed.
Lemma column_of m x J t j : (forall u, In u U -> is_float p e (x u)) -> (J <= m)%nat -> gform m x J t -> (j < J)%nat -> numbers (fg_w t j (S j)) ->
  (forall k, (k <= j)%nat -> numbers (fg_q t k)) /\ fcolumn p e U a mag count t j.
Proof.
  intros Fx HJ HG Hj N. destruct (gform_float Fx HG) as (_ & _ & _ & A4 & A5 & A6 & A7). destruct HG as [_ _ _ _ G5 G6 G7 G8 G9 _]. destruct Hpe as [Hp He].
  assert (S1 : forall i, (i <= S j)%nat -> numbers (fg_w t j (S j - i)) /\ forall k, (S j - i <= k)%nat -> (k <= j)%nat -> numbers (fg_w t j k) /\ numbers (fg_q t k) /\ is_number (SFopp (fg_h t k j)) /\ numbers (fg_w t j (S k))).
  { induction i as [|i IH]; intros Hi; [split; [rewrite Nat.sub_0_r; exact N|intros; lia]|]. destruct (IH ltac:(lia)) as [N1 N2].
    set (k := (S j - S i)%nat). replace (S j - i)%nat with (S k) in * by (unfold k; lia).
    assert (G : forall u, In u U -> is_number (SFopp (fg_h t k j)) /\ is_number (fg_q t k u) /\ is_number (fg_w t j k u)).
    { intros u Hu. assert (N' := N1 u Hu). rewrite G7 in N' by (unfold k; lia).
      destruct (fma_value Hp He (x := SFopp (fg_h t k j)) (y := fg_q t k u) (z := fg_w t j k u)) as (B1 & B2 & B3 & _); auto; [apply opp_float; apply A5; unfold k; lia|apply A6; [unfold k; lia|unfold k; lia|exact Hu]|apply A7; [exact Hj|exact HJ|unfold k; lia|exact Hu]]. }
    split; [intros u Hu; apply (G u Hu)|]. intros k' Hk1 Hk2. destruct (Nat.eq_dec k' k) as [-> |Ne]; [|apply N2; unfold k in *; lia].
    split; [intros u Hu; apply (G u Hu)|]. split; [intros u Hu; apply (G u Hu)|]. split; [apply (G u0 Hu0)|exact N1]. }
  destruct (S1 (S j) (le_n _)) as [N0 S2]. rewrite Nat.sub_diag in N0, S2. split; [intros k Hk; apply (S2 k ltac:(lia) Hk)|]. constructor.
  - apply near_product_number; [apply G5; exact Hj|exact N0].
  - intros k Hk. apply summed_of_approx; [apply G6; assumption|]. destruct (S2 k ltac:(lia) Hk) as (_ & _ & B & _). apply (opp_value _ B).
  - intros k u Hk Hu. destruct (S2 k ltac:(lia) Hk) as (_ & _ & B & B'). destruct (opp_value _ B) as [B1 B2]. rewrite (G7 j k u) by lia.
    refine (@rounded_fma p e (conj Hp He) _ _ _ _ _ _ _ _ _); [apply opp_float; apply A5; lia|apply A6; [lia|lia|exact Hu]|apply A7; [exact Hj|exact HJ|lia|exact Hu]|rewrite <- (G7 j k u) by lia; apply B'; exact Hu|rewrite B2; ring].
  - rewrite (G9 j Hj). intros Nn. destruct (sqrt_value Hp He (A4 j Hj) Nn) as (Ns & Ps & Es). split; [apply summed_of_approx; [apply G8; exact Hj|exact Ns]|]. split; [exact Ps|].
    split; [apply sqrt_float; auto|]. split; [exact Nn|]. rewrite Es. apply rnd_error; assumption.
Qed.
(** if the solution is finite after the cycle, then it was before it, and the errors are as specified *)
Lemma gform_cycle m x t : (0 < m)%nat -> (forall u, In u U -> is_float p e (x u)) -> gform m x m t -> gsum x t -> numbers (fg_x t m) -> numbers x /\ float_cycle p e U a mag count b m x t.
Proof.
  intros Hm Fx HG [HX0 HX] N. destruct (gform_float Fx HG) as (A1 & A2 & A3 & A4 & A5 & A6 & A7). assert (PE := Hpe). destruct PE as [Hp He].
  assert (FX : forall j u, (j <= m)%nat -> In u U -> is_float p e (fg_x t j u)).
  { induction j as [|j IH]; intros u Hj Hu; [rewrite HX0; auto|]. rewrite HX. apply fma_float; auto; [apply A6; [lia|lia|exact Hu]|apply IH; [lia|exact Hu]]. }
  assert (S1 : forall i, (i <= m)%nat -> numbers (fg_x t (m - i)) /\ forall j, (m - i <= j)%nat -> (j < m)%nat -> numbers (fg_q t j) /\ numbers (fg_x t (S j))).
  { induction i as [|i IH]; intros Hi; [split; [rewrite Nat.sub_0_r; exact N|intros; lia]|]. destruct (IH ltac:(lia)) as [N1 N2].
    set (k := (m - S i)%nat). replace (m - i)%nat with (S k) in * by (unfold k; lia).
    assert (G : forall u, In u U -> is_number (fg_q t k u) /\ is_number (fg_x t k u)).
    { intros u Hu. assert (N' := N1 u Hu). rewrite HX in N'.
      destruct (fma_value Hp He (x := one) (y := fg_q t k u) (z := fg_x t k u)) as (B1 & B2 & B3 & _); auto; [apply A6; [unfold k; lia|unfold k; lia|exact Hu]|apply FX; [unfold k; lia|exact Hu]]. }
    split; [intros u Hu; apply (G u Hu)|]. intros k' Hk1 Hk2. destruct (Nat.eq_dec k' k) as [-> |Ne]; [|apply N2; unfold k in *; lia].
    split; [intros u Hu; apply (G u Hu)|exact N1]. }
  destruct (S1 m (le_n _)) as [N0 S2]. rewrite Nat.sub_diag in N0, S2.
  assert (Nx : numbers x) by (intros u Hu; rewrite <- HX0; apply N0; exact Hu). split; [exact Nx|].
  pose proof HG as HG'. destruct HG' as [G1 G2 G3 G4 G5 G6 G7 G8 G9 G10].
  destruct (@normalised_of (fg_r t) (fg_rr t) (fg_q t 0) A2 G3 G4 (proj1 (S2 0%nat (le_n _) Hm))) as [Nr Q0].
  assert (Nax : numbers (fg_ax t)).
  { intros u Hu. assert (N' := Nr u Hu). rewrite G2 in N'. destruct (fma_value Hp He (x := neg1) (y := fg_ax t u) (z := b u)) as (_ & B2 & _ & _); auto. }
  assert (NW : forall j, (S j < m)%nat -> numbers (fg_w t j (S j)) /\ normalised p e U (fg_w t j (S j)) (fg_d t j) (fg_q t (S j))).
  { intros j Hj. apply normalised_of; [intros u Hu; apply A7; [lia|lia|lia|exact Hu]|apply G8; lia|intros u; apply G10; lia|apply (S2 (S j)); lia]. }
  constructor.
  - apply near_product_number; assumption.
  - intros u Hu. rewrite G2. refine (@rounded_fma p e (conj Hp He) _ _ _ _ _ _ _ _ _); auto; [rewrite <- G2; apply Nr; exact Hu|rewrite En; ring].
  - exact Q0.
  - intros j Hj H. apply (@column_of m x m t j Fx (le_n _) HG Hj). destruct H as [H|H]; [apply (NW j H)|intros u Hu; apply (H u Hu)].
  - intros j Hj. apply (NW j Hj).
  - intros u Hu. apply HX0.
  - intros j u Hj Hu. rewrite HX. refine (@rounded_fma p e (conj Hp He) _ _ _ _ _ _ _ _ _); [exact F1|apply A6; [lia|lia|exact Hu]|apply FX; [lia|exact Hu]|rewrite <- HX; apply (S2 j); [lia|lia|exact Hu]|rewrite E1; ring].
Qed.
(** extending a form by a column *)
Definition add_column (t : fcycle P) (J : nat) (wJ : nat -> P -> spec_float) (hJ : nat -> spec_float) (dJ : spec_float) (qn : P -> spec_float) : fcycle P :=
  mk_fcycle (fg_ax t) (fg_r t) (fg_rr t) (fun i => if (i =? S J)%nat then qn else fg_q t i) (fun j => if (j =? J)%nat then wJ else fg_w t j)
    (fun k j => if (j =? J)%nat then hJ k else fg_h t k j) (fun j => if (j =? J)%nat then dJ else fg_d t j) (fg_x t).
Lemma gform_add m x J t wJ hJ dJ qn : gform m x J t -> near (fg_q t J) (wJ 0%nat) ->
  (forall k, (k <= J)%nat -> approx p e False (dots (fg_q t k) (wJ k)) (hJ k)) -> (forall k u, (k <= J)%nat -> wJ (S k) u = sf_fma p e (SFopp (hJ k)) (fg_q t k u) (wJ k u)) ->
  approx p e False (dots (wJ (S J)) (wJ (S J))) dJ -> hJ (S J) = SFsqrt p e dJ -> ((S J < m)%nat -> forall u, qn u = SFmul p e (scale dJ) (wJ (S J) u)) ->
  gform m x (S J) (add_column t J wJ hJ dJ qn).
Proof.
  intros [G1 G2 G3 G4 G5 G6 G7 G8 G9 G10] H1 H2 H3 H4 H5 H6.
  assert (X : forall i, (i <= J)%nat -> (i =? S J)%nat = false) by (intros i Hi; apply Nat.eqb_neq; lia).
  constructor; cbn [add_column fg_ax fg_r fg_rr fg_q fg_w fg_h fg_d]; auto.
  - intros j Hj. rewrite X by lia. destruct (Nat.eqb_spec j J) as [-> |Ne]; [exact H1|apply G5; lia].
  - intros j k Hj Hk. rewrite X by lia. destruct (Nat.eqb_spec j J) as [-> |Ne]; [apply H2; lia|apply G6; lia].
  - intros j k u Hj Hk. rewrite X by lia. destruct (Nat.eqb_spec j J) as [-> |Ne]; [apply H3; lia|apply G7; lia].
  - intros j Hj. destruct (Nat.eqb_spec j J) as [-> |Ne]; [exact H4|apply G8; lia].
  - intros j Hj. destruct (Nat.eqb_spec j J) as [-> |Ne]; [exact H5|apply G9; lia].
  - intros j u Hj Hm. destruct (Nat.eqb_spec j J) as [-> |Ne]; [rewrite Nat.eqb_refl; apply H6; lia|]. rewrite X by lia. apply G10; lia.
Qed.
End Cycle.
