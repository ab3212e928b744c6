(** PropsFloatScalar: property C01 for the float and double instantiations: what each deferred operation computes as a real number. *)
From Coq Require Import Reals Lra Lia ZArith.
From Coq Require Import Floats.SpecFloat.
From Flocq Require Import Core BinarySingleNaN.
From Verif Require Import Base Index Outcome Sched Async Arith Launch Vector VectorFacts LaunchFacts Builder BuilderFacts Exec ScalarProg PropsScalar Float FloatSum PropsFloat.
Set Implicit Arguments.
Local Open Scope R_scope.

(** ** Specification *)
(** [x] is a finite float and no finite float of the format is closer to [t] *)
Definition nearest (p e : Z) (x : spec_float) (t : R) : Prop :=
  is_float p e x /\ is_number x /\ forall y, is_float p e y -> is_number y -> Rabs (fvalue x - t) <= Rabs (fvalue y - t).
(** the exact result of one operation on the values of the variables *)
Definition exact_result (v : nat -> R) (ex : sexp spec_float) : option R :=
  match ex with
  | Var x | Plus (Var x) => Some (v x)
  | Neg (Var x) => Some (- v x)
  | Add (Var x) (Var y) => Some (v x + v y)
  | Sub (Var x) (Var y) => Some (v x - v y)
  | Mul (Var x) (Var y) => Some (v x * v y)
  | Div (Var x) (Var y) => Some (v x / v y)
  | Sqrt (Var x) => Some (sqrt (v x))
  | _ => None
  end.
(** no division by zero, no root of a negative number *)
Definition sensible (v : nat -> R) (ex : sexp spec_float) : Prop :=
  match ex with Div _ (Var y) => v y <> 0 | Sqrt (Var x) => 0 <= v x | _ => True end.

(** ** Facts *)
Lemma rnd_nearest p e x t : format p e -> is_float p e x -> is_number x -> fvalue x = round radix2 (SpecFloat.fexp p e) ZnearestE t -> nearest p e x t.
Proof.
  intros [Hp He] Hx Nx E. split; [exact Hx|]. split; [exact Nx|]. intros y Hy _. rewrite E.
  assert (V : Valid_exp (SpecFloat.fexp p e)) by (apply fexp_correct; exact Hp).
  destruct (round_N_pt radix2 (SpecFloat.fexp p e) (fun n => negb (Z.even n)) t) as [_ H]. apply H. apply float_format. exact Hy.
Qed.
Lemma self_nearest p e x : is_float p e x -> is_number x -> nearest p e x (fvalue x).
Proof.
  intros Hx Nx. split; [exact Hx|]. split; [exact Nx|]. intros y _ _. replace (fvalue x - fvalue x) with 0 by ring. rewrite Rabs_R0. apply Rabs_pos.
Qed.
Lemma sqrt_number p e x : format p e -> is_float p e x -> is_number x -> 0 <= fvalue x -> is_number (SFsqrt p e x).
Proof.
  intros [Hp He] Hx. destruct (@lift_float p e x Hx) as [a ->]. rewrite (@sqrt_equiv p e Hp He), !(@number_B2SF p e), !(@fvalue_B2R p e). intros F H. destruct (Bsqrt_correct p e Hp He mode_NE a) as (_ & C2 & _).
  refine (eq_trans C2 _). destruct a as [sa|sa| |sa ma ea Ba]; try discriminate; [reflexivity|]. destruct sa; [|reflexivity]. exfalso. cbn in H.
  assert (L : F2R (Float radix2 (Z.neg ma) ea) < 0) by (apply F2R_lt_0; reflexivity). lra.
Qed.

(** ** C01 in float and double: one statement z = x op y.  On finite operands every operation returns the float nearest to the exact
    result whenever it returns a finite number, and it does so unless the operation is undefined or the exact result
    exceeds half the overflow threshold. *)
Theorem C01_ieee_operations : forall (p e : Z) (ex : sexp spec_float) (z : nat) (env : nat -> nat) (st : ist) (s : store loc spec_float) env' st' s' t,
  format p e -> (forall x, (env x < next_fut st)%nat) ->
  (forall x, is_float p e (s (LFut (env x))) /\ is_number (s (LFut (env x)))) ->
  ends (issue_prog (ieee p e) env [Assign z ex]) st s env' st' s' ->
  exact_result (fun x => fvalue (s (LFut (env x)))) ex = Some t ->
  let r := s' (LFut (env' z)) in
  (is_number r -> sensible (fun x => fvalue (s (LFut (env x)))) ex /\ nearest p e r t) /\
  (sensible (fun x => fvalue (s (LFut (env x)))) ex -> Rabs t <= largest e -> is_number r).
Proof.
  intros p e ex z env st s env' st' s' t Hf He Hv Hends. cbv zeta. assert (Hf' := Hf). destruct Hf' as [Hp Hpe].
  rewrite (proj2 (@C01_deferred_equals_direct _ (ieee p e) _ env st s He) _ _ _ Hends z). cbn [direct_prog st_var st_exp]. unfold set. rewrite Nat.eqb_refl.
  assert (F := fun x => proj1 (Hv x)). assert (N := fun x => proj2 (Hv x)).
  intros E.
  destruct ex as [x|c|[x| | | | | | | | |]|[x| | | | | | | | |]|[x| | | | | | | | |] [y| | | | | | | | |]|[x| | | | | | | | |] [y| | | | | | | | |]|[x| | | | | | | | |] [y| | | | | | | | |]|[x| | | | | | | | |] [y| | | | | | | | |]|[x| | | | | | | | |]|ex]; try discriminate; cbn [exact_result] in E; injection E as <-; cbn [direct_exp sensible ieee aneg aadd asub amul adiv asqrt].
  - split; [intros H; split; [exact I|apply self_nearest; [apply F|exact H]]|intros; apply N].
  - split; [intros H; split; [exact I|apply self_nearest; [apply F|exact H]]|intros; apply N].
  - split.
    + intros H. split; [exact I|]. destruct (@opp_value (s (LFut (env x))) H) as [_ E]. rewrite <- E. apply self_nearest; [apply opp_float, F|exact H].
    + intros _ _. apply opp_number, N.
  - split.
    + intros H. split; [exact I|]. destruct (@add_value p e Hp Hpe _ _ (F x) (F y) H) as (_ & _ & E). apply rnd_nearest; [exact Hf|apply add_float; auto|exact H|exact E].
    + intros _ H. apply add_number; auto.
  - split.
    + intros H. split; [exact I|]. destruct (@sub_value p e Hp Hpe _ _ (F x) (F y) H) as (_ & _ & E). apply rnd_nearest; [exact Hf|apply sub_float; auto|exact H|exact E].
    + intros _ H. apply sub_number; auto.
  - split.
    + intros H. split; [exact I|]. destruct (@mul_value p e Hp Hpe _ _ (F x) (F y) H) as (_ & _ & E). apply rnd_nearest; [exact Hf|apply mul_float; auto|exact H|exact E].
    + intros _ H. apply mul_number; auto.
  - split.
    + intros H. destruct (@div_value p e Hp Hpe _ _ (F x) (F y) (N y) H) as (_ & Z & E). split; [exact Z|]. apply rnd_nearest; [exact Hf|apply div_float; auto|exact H|exact E].
    + intros Z H. apply div_number; auto.
  - split.
    + intros H. destruct (@sqrt_value p e Hp Hpe _ (F x) H) as (_ & Z & E). split; [exact Z|]. apply rnd_nearest; [exact Hf|apply sqrt_float; auto|exact H|exact E].
    + intros Z _. apply sqrt_number; auto.
Qed.
(** rsqrt is 1/sqrt with two roundings: the float nearest to 1/r, where r is the float nearest to the root. *)
Theorem C01_ieee_rsqrt : forall (p e : Z) (x z : nat) (env : nat -> nat) (st : ist) (s : store loc spec_float) env' st' s',
  format p e -> (forall x, (env x < next_fut st)%nat) ->
  (forall x, is_float p e (s (LFut (env x))) /\ is_number (s (LFut (env x)))) ->
  ends (issue_prog (ieee p e) env [Assign z (RSqrt (Var x))]) st s env' st' s' ->
  is_number (s' (LFut (env' z))) -> 0 <= fvalue (s (LFut (env x))) ->
  exists r, nearest p e r (sqrt (fvalue (s (LFut (env x))))) /\ fvalue r <> 0 /\ nearest p e (s' (LFut (env' z))) (1 / fvalue r).
Proof.
  intros p e x z env st s env' st' s' Hf He Hv Hends. assert (Hf' := Hf). destruct Hf' as [Hp Hpe].
  rewrite (proj2 (@C01_deferred_equals_direct _ (ieee p e) _ env st s He) _ _ _ Hends z). cbn [direct_prog st_var st_exp direct_exp ieee adiv asqrt a1]. unfold set. rewrite Nat.eqb_refl.
  destruct (Hv x) as [F N]. intros H Z. assert (Ns := sqrt_number Hf F N Z). assert (Fs := @sqrt_float p e Hp Hpe _ F).
  exists (SFsqrt p e (s (LFut (env x)))). destruct (@sqrt_value p e Hp Hpe _ F Ns) as (_ & _ & E). split; [apply rnd_nearest; assumption|].
  destruct (@one_value p e Hp Hpe) as [O1 O2]. assert (FO := @normalize_float p e Hp Hpe 1 0 false).
  destruct (@div_value p e Hp Hpe _ _ FO Fs Ns H) as (_ & Z0 & E2). split; [exact Z0|]. rewrite O2 in E2. apply rnd_nearest; [exact Hf|apply div_float; assumption|exact H|exact E2].
Qed.
(** the whole program stays inside the format *)
Fixpoint consts_float (p e : Z) (ex : sexp spec_float) : Prop :=
  match ex with
  | Var _ => True | Const c => is_float p e c
  | Plus a | Neg a | Sqrt a | RSqrt a => consts_float p e a
  | Add a b | Sub a b | Mul a b | Div a b => consts_float p e a /\ consts_float p e b
  end.
Lemma direct_exp_float p e v ex : format p e -> (forall x, is_float p e (v x)) -> consts_float p e ex -> is_float p e (direct_exp (ieee p e) v ex).
Proof.
  intros [Hp He] Hv. induction ex as [x|c|a IH|a IH|a IHa b IHb|a IHa b IHb|a IHa b IHb|a IHa b IHb|a IH|a IH]; cbn [consts_float direct_exp]; intros H.
  - apply Hv.
  - exact H.
  - apply IH, H.
  - apply opp_float, IH, H.
  - destruct H. apply add_float; auto.
  - destruct H. apply sub_float; auto.
  - destruct H. apply mul_float; auto.
  - destruct H. apply div_float; auto.
  - apply sqrt_float; auto.
  - apply div_float; auto; [|apply sqrt_float; auto]. apply normalize_float; assumption.
Qed.
Theorem C01_ieee_closed : forall (p e : Z) (pr : list (stmt spec_float)) (env : nat -> nat) (st : ist) (s : store loc spec_float) env' st' s',
  format p e -> (forall x, (env x < next_fut st)%nat) ->
  (forall x, is_float p e (s (LFut (env x)))) -> (forall a, In a pr -> consts_float p e (st_exp a)) ->
  ends (issue_prog (ieee p e) env pr) st s env' st' s' -> forall x, is_float p e (s' (LFut (env' x))).
Proof.
  intros p e pr env st s env' st' s' Hf He Hv Hc Hends x. rewrite (proj2 (@C01_deferred_equals_direct _ (ieee p e) _ env st s He) _ _ _ Hends x).
  clear Hends He. revert Hv Hc. set (v := fun y => s (LFut (env y))). intros Hv. assert (Hv' : forall y, is_float p e (v y)) by exact Hv. clear Hv. clearbody v. revert v Hv' x.
  induction pr as [|a pr IH]; intros v Hv x Hc; [apply Hv|]. cbn [direct_prog]. apply IH; [|intros b Hb; apply Hc; right; exact Hb].
  intros y. unfold set. destruct (y =? st_var a)%nat; [|apply Hv]. apply direct_exp_float; [exact Hf|exact Hv|apply Hc; left; reflexivity].
Qed.
(** 2 - 3 in double: the hypotheses hold, and the deferred difference is nearest to -1. *)
Definition sc23 : store loc f64 := fun l => match l with LFut 0 => f64_of_Z 2 | _ => f64_of_Z 3 end.
Example C01_ieee_example : forall env' st' s',
  (forall x, is_float 53 1024 (sc23 (LFut (Nat.min x 1))) /\ is_number (sc23 (LFut (Nat.min x 1)))) /\
  (ends (issue_prog (ieee 53 1024) (fun x => Nat.min x 1) [Assign 2 (Sub (Var 0) (Var 1))]) (mk_ist 2 0) sc23 env' st' s' -> nearest 53 1024 (s' (LFut (env' 2%nat))) (-1)).
Proof.
  intros env' st' s'. assert (V : forall x, is_float 53 1024 (sc23 (LFut (Nat.min x 1))) /\ is_number (sc23 (LFut (Nat.min x 1)))).
  { intros [|[|x]]; cbn; split; reflexivity || exact I. }
  split; [exact V|]. intros H. assert (L : forall x, (Nat.min x 1 < next_fut (mk_ist 2 0))%nat) by (intros x; cbn [next_fut]; lia).
  destruct (@C01_ieee_operations 53 1024 _ 2%nat _ (mk_ist 2 0) sc23 env' st' s' _ double_format_ok L V H eq_refl) as [H1 H2].
  cbn [Nat.min sc23] in H1, H2. cbv zeta in H1. rewrite (f64_small (z := 2)), (f64_small (z := 3)) in H1, H2 by lia.
  replace (2 - 3) with (-1) in H1, H2 by ring. apply H1. apply H2; [exact I|]. rewrite Rabs_left by lra. unfold largest. rewrite powerRZ_bpow. replace (- -1) with (bpow radix2 0) by (cbn; ring). apply bpow_le. lia.
Qed.
