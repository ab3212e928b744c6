(** ExactSum: sums in exact arithmetic (reals with an absorbing undefined value). *)
From Verif Require Import Base Index Outcome Sched Arith Launch Vector VectorFacts LaunchFacts Matrix MatrixSpec.
From Coq Require Import Reals Lra.
Set Implicit Arguments.

(** Sum of a list; undefined as soon as one term is. *)
Definition osum (l : list (option R)) : option R := fold_right (lift2 Rplus) (Some 0%R) l.
(** Sum of [f p] over the points of a list. *)
Definition Rsum {P} (f : P -> R) (l : list P) : R := fold_right (fun p acc => f p + acc)%R 0%R l.

Lemma oplus_assoc (x y z : option R) : lift2 Rplus x (lift2 Rplus y z) = lift2 Rplus (lift2 Rplus x y) z.
Proof. destruct x, y, z; cbn; try reflexivity. f_equal. ring. Qed.
Lemma oplus_comm (x y : option R) : lift2 Rplus x y = lift2 Rplus y x.
Proof. destruct x, y; cbn; try reflexivity. f_equal. ring. Qed.
Lemma oplus_0_l (x : option R) : lift2 Rplus (Some 0%R) x = x.
Proof. destruct x; cbn; [f_equal; ring|reflexivity]. Qed.
Lemma oplus_0_r (x : option R) : lift2 Rplus x (Some 0%R) = x.
Proof. destruct x; cbn; [f_equal; ring|reflexivity]. Qed.
Lemma osum_app l1 l2 : osum (l1 ++ l2) = lift2 Rplus (osum l1) (osum l2).
Proof.
  induction l1 as [|a l1 IH]; cbn; [symmetry; apply oplus_0_l|]. fold (osum (l1 ++ l2)). rewrite IH. apply oplus_assoc.
Qed.
Lemma osum_perm l1 l2 : Permutation l1 l2 -> osum l1 = osum l2.
Proof.
  induction 1 as [|x l l' H IH|x y l|l l' l'' H1 IH1 H2 IH2]; cbn.
  - reflexivity.
  - fold (osum l) (osum l'). rewrite IH. reflexivity.
  - rewrite !oplus_assoc. f_equal. apply oplus_comm.
  - congruence.
Qed.
Lemma osum_concat ls : osum (concat ls) = osum (map osum ls).
Proof. induction ls as [|l ls IH]; cbn; [reflexivity|]. rewrite osum_app, IH. reflexivity. Qed.
Lemma osum_some {P} (f : P -> R) l : osum (map (fun p => Some (f p)) l) = Some (Rsum f l).
Proof. induction l as [|a l IH]; cbn; [reflexivity|]. fold (osum (map (fun p => Some (f p)) l)). rewrite IH. reflexivity. Qed.
Lemma osum_inv {P} (f : P -> option R) l r : osum (map f l) = Some r -> forall p, In p l -> f p <> None.
Proof.
  revert r. induction l as [|a l IH]; intros r H p Hp; [destruct Hp|]. cbn in H. fold (osum (map f l)) in H.
  destruct (f a) as [x|] eqn:Ea; [|discriminate]. destruct (osum (map f l)) as [y|] eqn:Eo; [|discriminate].
  destruct Hp as [<-|Hp]; [congruence|]. apply (IH y eq_refl). exact Hp.
Qed.

(** Whatever the reduction tree, the exact result is the sum. *)
Lemma reduces_to_exact l x : reduces_to exact l x -> x = osum l.
Proof.
  induction 1 as [|x|l l1 l2 x y Hp H1 IH1 H2 IH2]; cbn.
  - reflexivity.
  - symmetry. apply oplus_0_r.
  - rewrite (osum_perm Hp), osum_app, IH1, IH2. reflexivity.
Qed.

Lemma dot_loop_exact {P} (f g : P -> option R) l acc :
  dot_loop exact acc (flat_map (fun p => [f p; g p]) l) = lift2 Rplus acc (osum (map (fun p => lift2 Rmult (f p) (g p)) l)).
Proof.
  revert acc. induction l as [|a l IH]; intros acc; cbn [flat_map app map].
  - cbn. symmetry. apply oplus_0_r.
  - cbn [dot_loop]. rewrite IH. cbn [osum fold_right]. fold (osum (map (fun p => lift2 Rmult (f p) (g p)) l)).
    rewrite oplus_assoc. reflexivity.
Qed.
Lemma partial_dot_exact s v w piece : partial_dot exact s v w piece =
  osum (map (fun p => lift2 Rmult (s (at_point v p)) (s (at_point w p))) piece).
Proof. unfold partial_dot. rewrite dot_loop_exact. cbn [exact a0]. apply oplus_0_l. Qed.

Lemma accumulate_row_exact x start ts :
  accumulate_row exact x start ts = lift2 Rplus start (osum (map (fun t => let '(_, c, e) := t in lift2 Rmult e (x c)) ts)).
Proof.
  unfold accumulate_row. revert start. induction ts as [|[[r c] e] ts IH]; intros start; cbn [fold_left map osum fold_right].
  - symmetry. apply oplus_0_r.
  - rewrite IH. cbn [exact aadd amul]. fold (osum (map (fun t => let '(_, c, e) := t in lift2 Rmult e (x c)) ts)).
    symmetry. apply oplus_assoc.
Qed.

(** real sums *)
Lemma Rsum_cons {P} (f : P -> R) a l : Rsum f (a :: l) = (f a + Rsum f l)%R.
Proof. reflexivity. Qed.
Lemma Rsum_nil {P} (f : P -> R) : Rsum f [] = 0%R.
Proof. reflexivity. Qed.
Global Opaque Rsum.
Lemma Rsum_app {P} (f : P -> R) l1 l2 : (Rsum f (l1 ++ l2) = Rsum f l1 + Rsum f l2)%R.
Proof. induction l1 as [|a l1 IH]; cbn [app]; rewrite ?Rsum_cons, ?Rsum_nil; [ring|]. rewrite IH. ring. Qed.
Lemma Rsum_ext {P} (f g : P -> R) l : (forall p, In p l -> f p = g p) -> Rsum f l = Rsum g l.
Proof.
  induction l as [|a l IH]; intros H; rewrite ?Rsum_cons, ?Rsum_nil; [reflexivity|].
  rewrite (H a (or_introl eq_refl)), IH; [reflexivity|]. intros p Hp. apply H. right; exact Hp.
Qed.
Lemma Rsum_plus {P} (f g : P -> R) l : (Rsum (fun p => f p + g p) l = Rsum f l + Rsum g l)%R.
Proof. induction l as [|a l IH]; rewrite ?Rsum_cons, ?Rsum_nil; [ring|]. rewrite IH. ring. Qed.
Lemma Rsum_scal {P} c (f : P -> R) l : (Rsum (fun p => c * f p) l = c * Rsum f l)%R.
Proof. induction l as [|a l IH]; rewrite ?Rsum_cons, ?Rsum_nil; [ring|]. rewrite IH. ring. Qed.
Lemma Rsum_zero {P} (l : list P) : Rsum (fun _ => 0%R) l = 0%R.
Proof. induction l as [|a l IH]; rewrite ?Rsum_cons, ?Rsum_nil; [reflexivity|]. rewrite IH. ring. Qed.
Lemma Rsum_perm {P} (f : P -> R) l1 l2 : Permutation l1 l2 -> Rsum f l1 = Rsum f l2.
Proof.
  induction 1 as [|x l l' H IH|x y l|l l' l'' H1 IH1 H2 IH2]; rewrite ?Rsum_cons; [reflexivity| |ring|congruence].
  rewrite IH. reflexivity.
Qed.
Lemma Rsum_swap {P Q} (f : P -> Q -> R) l1 l2 : Rsum (fun p => Rsum (f p) l2) l1 = Rsum (fun q => Rsum (fun p => f p q) l1) l2.
Proof.
  induction l1 as [|a l1 IH].
  - rewrite Rsum_nil. rewrite (Rsum_ext (fun q => Rsum (fun p : P => f p q) []) (fun _ => 0%R)) by (intros; apply Rsum_nil).
    symmetry. apply Rsum_zero.
  - rewrite Rsum_cons, IH. rewrite <- Rsum_plus. apply Rsum_ext. intros q _. rewrite Rsum_cons. reflexivity.
Qed.
Lemma Rsum_map {P Q} (f : Q -> R) (g : P -> Q) l : Rsum f (map g l) = Rsum (fun p => f (g p)) l.
Proof. induction l as [|a l IH]; cbn [map]; rewrite ?Rsum_cons, ?Rsum_nil; [reflexivity|]. rewrite IH. reflexivity. Qed.
Lemma Rsum_flat_map {P Q} (f : Q -> R) (g : P -> list Q) l : Rsum f (flat_map g l) = Rsum (fun p => Rsum f (g p)) l.
Proof. induction l as [|a l IH]; cbn [flat_map]; rewrite ?Rsum_app, ?Rsum_cons, ?Rsum_nil; [reflexivity|]. rewrite IH. reflexivity. Qed.
Lemma Rsum_filter {P} (f : P -> R) (g : P -> bool) l : Rsum f (filter g l) = Rsum (fun p => if g p then f p else 0%R) l.
Proof.
  induction l as [|a l IH]; cbn [filter]; [reflexivity|]. rewrite Rsum_cons, <- IH. destruct (g a); rewrite ?Rsum_cons; ring.
Qed.
Lemma Rsum_nonneg {P} (f : P -> R) l : (forall p, In p l -> 0 <= f p)%R -> (0 <= Rsum f l)%R.
Proof.
  induction l as [|a l IH]; intros H; rewrite ?Rsum_cons, ?Rsum_nil; [lra|].
  assert (0 <= f a)%R by (apply H; left; reflexivity). assert (0 <= Rsum f l)%R by (apply IH; intros p Hp; apply H; right; exact Hp). lra.
Qed.
Lemma Rsum_nonneg_zero {P} (f : P -> R) l : (forall p, In p l -> 0 <= f p)%R -> Rsum f l = 0%R -> forall p, In p l -> f p = 0%R.
Proof.
  induction l as [|a l IH]; intros H E p Hp; [destruct Hp|]. rewrite Rsum_cons in E.
  assert (0 <= f a)%R by (apply H; left; reflexivity).
  assert (0 <= Rsum f l)%R by (apply Rsum_nonneg; intros q Hq; apply H; right; exact Hq).
  destruct Hp as [<-|Hp]; [lra|]. apply IH; [|lra|exact Hp]. intros q Hq. apply H. right; exact Hq.
Qed.
