(** PropsTestAll: property C90: what the project's test script /repo/test_all.py reports. *)
From Coq Require Import Reals Lra String Ascii.
From Verif Require Import Base Index IndexFacts Outcome Sched Async Arith Launch Vector PartitionSpec VectorFacts LaunchFacts Matrix MatrixSpec MatrixFacts
  MatvecFacts Builder BuilderFacts Planner PlannerFacts PlannerSetup Solvers Exec PropsVector PropsMatrix PropsPlanner PropsSolver.
From Verif Require StencilFill StencilFillFacts.
From Verif Require Import ExampleSystems PropsExample PropsLaplacian LaplacianRow LaplacianCG Float FloatSum PropsFloat PropsFloatTests.
From Verif Require Import FreshFacts FreshOps PrintScalar PropsPrintScalar VectorProg VectorSpec PropsVectorProg TestPrograms PropsTests TestAll.
From Coq Require Import SpecFloat.
Set Implicit Arguments.
Local Open Scope string_scope.
Local Open Scope list_scope.
Notation "a +++ b" := (String.append a b) (at level 60, right associativity).

(** ** Specification *)
(** the lines the script leaves out *)
Definition ignorable (line : string) : Prop :=
  exists rest, line = "[LegionSolvers] Registering task" +++ rest \/ line = "[LegionSolvers] Constructing" +++ rest \/ line = "[LegionSolvers] Finished constructing" +++ rest.
(** ... and in test 01: also the lines of one known warning, and empty lines *)
Definition ignorable_01 (line : string) : Prop :=
  ignorable line \/ (exists a b, line = a +++ "[warning 1047]" +++ b) \/ (exists a b, line = a +++ "warning_code_1047" +++ b) \/ line = "For more information see:" \/ line = "".
Definition is_error (x : says) : Prop := match x with NotEmpty _ | NotEqual _ _ => True | _ => False end.
Definition reports_error (l : list says) : Prop := exists x, In x l /\ is_error x.
Definition clean_stderr (p : process) : Prop := forall line, In line (p_stderr p) -> In line ignored_stderr_lines.

(** ** Strings *)
Lemma starts_with_spec x line : starts_with x line = true <-> exists rest, line = x +++ rest.
Proof.
  unfold starts_with. revert line. induction x as [|a x IH]; intros line.
  - split; [intros _; exists line; reflexivity|intros _; destruct line; reflexivity].
  - destruct line as [|b line]; [split; [discriminate|intros [rest E]; discriminate]|]. cbn [String.prefix]. destruct (ascii_dec a b) as [<-|N].
    + rewrite IH. split; intros [rest E]; exists rest; [rewrite E; reflexivity|injection E as E; exact E].
    + split; [discriminate|]. intros [rest E]. injection E as E _. congruence.
Qed.
Lemma ignored_spec line : ignored line = true <-> ignorable line.
Proof.
  unfold ignored, ignorable. rewrite !orb_true_iff, !starts_with_spec. split.
  - intros [[[r H]|[r H]]|[r H]]; exists r; auto.
  - intros [r [H|[H|H]]]; [left; left|left; right|right]; exists r; exact H.
Qed.
Lemma occurs_in_spec x line : occurs_in x line = true <-> exists a b, line = a +++ x +++ b.
Proof.
  induction line as [|c line IH]; cbn [occurs_in]; rewrite orb_true_iff, starts_with_spec.
  - split; [intros [[b E]|E]; [exists "", b; exact E|discriminate]|]. intros [a [b E]]. destruct a; [left; exists b; exact E|discriminate].
  - rewrite IH. split.
    + intros [[b E]|[a [b E]]]; [exists "", b; exact E|exists (String c a), b; rewrite E; reflexivity].
    + intros [[|c' a] [b E]]; [left; exists b; exact E|right; exists a, b; injection E as _ E; exact E].
Qed.
Lemma ignored_01_spec line : ignored_01 line = true <-> ignorable_01 line.
Proof. unfold ignored_01, ignorable_01. rewrite !orb_true_iff, ignored_spec, !occurs_in_spec, !String.eqb_eq. tauto. Qed.
Lemma ascii_compare_spec a b : match Ascii.compare a b with Eq => a = b | Lt => (N_of_ascii a < N_of_ascii b)%N | Gt => (N_of_ascii b < N_of_ascii a)%N end.
Proof.
  unfold Ascii.compare. destruct (N.compare_spec (N_of_ascii a) (N_of_ascii b)) as [E|E|E]; try exact E.
  rewrite <- (ascii_N_embedding a), <- (ascii_N_embedding b), E. reflexivity.
Qed.
Lemma ascii_compare_refl a : Ascii.compare a a = Eq.
Proof. unfold Ascii.compare. apply N.compare_refl. Qed.
Lemma compare_refl x : String.compare x x = Eq.
Proof. induction x as [|a x IH]; [reflexivity|]. cbn [String.compare]. rewrite ascii_compare_refl. exact IH. Qed.
Lemma compare_eq x y : String.compare x y = Eq -> x = y.
Proof. apply String.compare_eq_iff. Qed.
Lemma compare_gt x y : String.compare x y = Gt -> String.compare y x = Lt.
Proof. intros H. rewrite String.compare_antisym, H. reflexivity. Qed.
Lemma compare_trans x y z : String.compare x y = Lt -> String.compare y z = Lt -> String.compare x z = Lt.
Proof.
  revert y z. induction x as [|a x IH]; intros [|b y] [|c z]; cbn [String.compare]; try discriminate; try reflexivity.
  assert (A1 := ascii_compare_spec a b). assert (A2 := ascii_compare_spec b c). assert (A3 := ascii_compare_spec a c).
  destruct (Ascii.compare a b) eqn:E1; try discriminate; destruct (Ascii.compare b c) eqn:E2; try discriminate; intros H1 H2.
  - subst. rewrite ascii_compare_refl. eapply IH; eassumption.
  - subst. rewrite E2. reflexivity.
  - subst. rewrite E1. reflexivity.
  - destruct (Ascii.compare a c); [subst; lia|reflexivity|lia].
Qed.
Definition before (x y : string) : Prop := String.compare x y = Lt.
Lemma insert_in x l y : In y (insert_new x l) <-> y = x \/ In y l.
Proof.
  induction l as [|z l IH]; cbn [insert_new].
  - cbn. intuition congruence.
  - destruct (String.compare x z) eqn:E.
    + apply compare_eq in E. subst. cbn. intuition congruence.
    + cbn. intuition congruence.
    + cbn [In]. rewrite IH. intuition congruence.
Qed.
Lemma insert_sorted x l : StronglySorted before l -> StronglySorted before (insert_new x l).
Proof.
  induction 1 as [|z l Hs IH Hf]; cbn [insert_new]; [repeat constructor|]. destruct (String.compare x z) eqn:E.
  - constructor; assumption.
  - constructor; [constructor; assumption|]. constructor; [exact E|]. eapply Forall_impl; [|exact Hf]. intros y Hy. eapply compare_trans; eassumption.
  - constructor; [exact IH|]. apply Forall_forall. intros y Hy. apply insert_in in Hy. destruct Hy as [->|Hy]; [apply compare_gt; exact E|]. rewrite Forall_forall in Hf. apply Hf. exact Hy.
Qed.
Lemma sorted_set_in l y : In y (sorted_set l) <-> In y l.
Proof. induction l as [|x l IH]; [reflexivity|]. cbn [sorted_set fold_right]. rewrite insert_in. fold (sorted_set l). rewrite IH. cbn. intuition congruence. Qed.
Lemma sorted_set_sorted l : StronglySorted before (sorted_set l).
Proof. induction l as [|x l IH]; [constructor|]. apply insert_sorted. exact IH. Qed.
Lemma sorted_unique l1 l2 : StronglySorted before l1 -> StronglySorted before l2 -> (forall x, In x l1 <-> In x l2) -> l1 = l2.
Proof.
  intros H1. revert l2. induction H1 as [|a l1 Hs IH Hf]; intros l2 H2 H.
  - destruct l2 as [|b l2]; [reflexivity|]. destruct (proj2 (H b) (or_introl eq_refl)).
  - destruct H2 as [|b l2 Hs2 Hf2]; [destruct (proj1 (H a) (or_introl eq_refl))|]. rewrite Forall_forall in Hf, Hf2.
    assert (Irr : forall x, ~ before x x) by (intros x; unfold before; rewrite compare_refl; discriminate).
    assert (a = b).
    { destruct (proj1 (H a) (or_introl eq_refl)) as [E|I1]; [congruence|]. destruct (proj2 (H b) (or_introl eq_refl)) as [E|I2]; [congruence|].
      exfalso. apply (Irr a). eapply compare_trans; [apply Hf; exact I2|apply Hf2; exact I1]. }
    subst b. f_equal. apply IH; [exact Hs2|]. intros x. split; intros Hx.
    + destruct (proj1 (H x) (or_intror Hx)) as [<-|Hx2]; [exfalso; apply (Irr a); apply Hf; exact Hx|exact Hx2].
    + destruct (proj2 (H x) (or_intror Hx)) as [<-|Hx2]; [exfalso; apply (Irr a); apply Hf2; exact Hx|exact Hx2].
Qed.
Fixpoint ascending (l : list string) : bool :=
  match l with x :: (y :: _) as rest => match String.compare x y with Lt => ascending rest | _ => false end | _ => true end.
Lemma ascending_sorted l : ascending l = true -> StronglySorted before l.
Proof.
  induction l as [|x l IH]; [constructor|]. intros H. destruct l as [|y l]; [repeat constructor|]. cbn [ascending] in H.
  destruct (String.compare x y) eqn:E; try discriminate. specialize (IH H). constructor; [exact IH|]. constructor; [exact E|].
  inversion IH as [|? ? _ Hf]; subst. eapply Forall_impl; [|exact Hf]. intros z Hz. eapply compare_trans; eassumption.
Qed.
Lemma expected_partition_sorted : StronglySorted before expected_partition_output.
Proof. apply ascending_sorted. vm_compute. reflexivity. Qed.
Lemma expected_cg_sorted : StronglySorted before expected_cg_output.
Proof. apply ascending_sorted. vm_compute. reflexivity. Qed.

(** ** C90.  What the script reports *)
Lemma verdict_no_error n p : ~ reports_error (verdict n p).
Proof. unfold verdict. intros [x [Hx He]]. destruct (Z.eqb (p_code p) 0); destruct Hx as [<-|[]]; exact He. Qed.
Lemma reports_app l1 l2 : reports_error (l1 ++ l2) <-> reports_error l1 \/ reports_error l2.
Proof.
  unfold reports_error. split.
  - intros [x [Hx He]]. apply in_app_or in Hx. destruct Hx; [left|right]; exists x; auto.
  - intros [[x [Hx He]]|[x [Hx He]]]; exists x; (split; [apply in_or_app; auto|exact He]).
Qed.
Lemma reports_empty l : reports_error (assert_empty l) <-> l <> [].
Proof.
  destruct l as [|a l]; cbn; split; intros H.
  - destruct H as [x [[] _]].
  - congruence.
  - discriminate.
  - exists (NotEmpty (a :: l)). split; [left; reflexivity|exact I].
Qed.
Lemma reports_equal x y : reports_error (assert_equal x y) <-> x <> y.
Proof.
  unfold assert_equal. destruct (list_eq_dec string_dec x y) as [E|E]; split; intros H; try contradiction; try assumption.
  - destruct H as [z [[] _]].
  - eexists. split; [left; reflexivity|exact I].
Qed.
Lemma shown_stdout_in ign p line : In line (shown_stdout ign p) <-> In line (p_stdout p) /\ ign line = false.
Proof. unfold shown_stdout. rewrite filter_In, negb_true_iff. reflexivity. Qed.
Lemma shown_stderr_spec p : shown_stderr p = [] <-> clean_stderr p.
Proof.
  unfold shown_stderr, clean_stderr. induction (p_stderr p) as [|a l IH]; cbn [filter]; [split; [intros _ x []|reflexivity]|].
  destruct (existsb (String.eqb a) ignored_stderr_lines) eqn:E; cbn [negb].
  - apply existsb_exists in E. destruct E as [b [Hb E]]. apply String.eqb_eq in E. subst b. rewrite IH. split; [intros H x [<-|Hx]; auto|intros H x Hx; apply H; right; exact Hx].
  - split; [discriminate|]. intros H. exfalso. apply not_true_iff_false in E. apply E. apply existsb_exists. exists a. split; [apply H; left; reflexivity|apply String.eqb_refl].
Qed.
Lemma set_test_error n expected p : StronglySorted before expected ->
  ~ reports_error (test_set n expected p) <-> (forall line, In line expected <-> In line (p_stdout p) /\ ~ ignorable line) /\ clean_stderr p.
Proof.
  intros Hs. unfold test_set. rewrite !reports_app, reports_equal, reports_empty, <- shown_stderr_spec.
  assert (V := @verdict_no_error n p).
  assert (Heq : sorted_set (shown_stdout ignored p) = expected <-> (forall line, In line expected <-> In line (p_stdout p) /\ ~ ignorable line)).
  { assert (G : forall line, In line (sorted_set (shown_stdout ignored p)) <-> In line (p_stdout p) /\ ~ ignorable line).
    { intros line. rewrite sorted_set_in, shown_stdout_in, <- ignored_spec, not_true_iff_false. reflexivity. }
    split; [intros <-; exact G|]. intros H. apply sorted_unique; [apply sorted_set_sorted|exact Hs|]. intros x. rewrite G, H. reflexivity. }
  rewrite <- Heq. clear Heq. split.
  - intros H. split.
    + destruct (list_eq_dec string_dec (sorted_set (shown_stdout ignored p)) expected) as [E|E]; [exact E|]. exfalso. apply H. left. exact E.
    + destruct (shown_stderr p) as [|a l]; [reflexivity|]. exfalso. apply H. right. left. discriminate.
  - intros [H1 H2] [H|[H|H]]; auto.
Qed.
(** Tests 03 to 06 print no error exactly when the set of lines on standard output, apart from the ignored ones, is the set of expected lines (whatever
    their order and however often each occurs) and standard error has only the ignored lines. *)
Theorem C90_set_tests : forall n p,
  (~ reports_error (test_set n expected_partition_output p) <->
     (forall line, In line expected_partition_output <-> In line (p_stdout p) /\ ~ ignorable line) /\ clean_stderr p) /\
  (~ reports_error (test_set n expected_cg_output p) <->
     (forall line, In line expected_cg_output <-> In line (p_stdout p) /\ ~ ignorable line) /\ clean_stderr p).
Proof. intros n p. split; apply set_test_error; [exact expected_partition_sorted|exact expected_cg_sorted]. Qed.
(** Test 02 compares the list itself *)
Theorem C90_vector_test_exact : forall p, ~ reports_error (test_02 p) <->
  filter (fun line => negb (ignored line)) (p_stdout p) = repeat "0" 6 /\ clean_stderr p.
Proof.
  intros p. unfold test_02. rewrite !reports_app, reports_equal, reports_empty, <- shown_stderr_spec. assert (V := @verdict_no_error 2 p). fold (shown_stdout ignored p).
  cbn [repeat]. split.
  - intros H. split.
    + match goal with H : ~ (?a <> ?b \/ _) |- _ => destruct (list_eq_dec string_dec a b) as [E|E]; [exact E|] end. exfalso. apply H. left. exact E.
    + destruct (shown_stderr p) as [|a l]; [reflexivity|]. exfalso. apply H. right. left. discriminate.
  - intros [H1 H2] [H|[H|H]]; auto.
Qed.
(** Test 01 expects no line but the ignored ones *)
Theorem C90_scalar_test : forall p, ~ reports_error (test_01 p) <-> (forall line, In line (p_stdout p) -> ignorable_01 line) /\ clean_stderr p.
Proof.
  intros p. unfold test_01. rewrite !reports_app, !reports_empty, <- shown_stderr_spec. assert (V := @verdict_no_error 1 p).
  assert (E : shown_stdout ignored_01 p = [] <-> forall line, In line (p_stdout p) -> ignorable_01 line).
  { split.
    - intros E line Hl. apply ignored_01_spec. destruct (ignored_01 line) eqn:Ei; [reflexivity|]. assert (H := proj2 (shown_stdout_in ignored_01 p line) (conj Hl Ei)). rewrite E in H. destruct H.
    - intros H. destruct (shown_stdout ignored_01 p) as [|a l] eqn:E; [reflexivity|]. exfalso. assert (Ha := or_introl eq_refl : In a (a :: l)). rewrite <- E in Ha.
      apply shown_stdout_in in Ha. destruct Ha as [H1 H2]. specialize (H a H1). apply ignored_01_spec in H. congruence. }
  rewrite <- E. split.
  - intros H. split; [destruct (shown_stdout ignored_01 p)|destruct (shown_stderr p)]; try reflexivity; exfalso; apply H; [left|right; left]; discriminate.
  - intros [H1 H2] [H|[H|H]]; auto.
Qed.
(** The verdict is the return code alone: a test whose output is wrong is still reported as passed (after the error message), and the script ends
    normally unless a build test fails. *)
Theorem C90_verdict_is_return_code : forall n expected p,
  (In (Passed n) (test_set n expected p) <-> p_code p = 0%Z) /\ (In (Failed n) (test_set n expected p) <-> p_code p <> 0%Z) /\
  (In (Passed 1) (test_01 p) <-> p_code p = 0%Z) /\ (In (Failed 1) (test_01 p) <-> p_code p <> 0%Z) /\
  (In (Passed 2) (test_02 p) <-> p_code p = 0%Z) /\ (In (Failed 2) (test_02 p) <-> p_code p <> 0%Z).
Proof.
  assert (E : forall x l, ~ is_error x -> ~ In x (assert_empty l)) by (intros x [|a l] Hx; cbn; [tauto|]; intros [<-|[]]; apply Hx; exact I).
  assert (Q : forall x a b, ~ is_error x -> ~ In x (assert_equal a b)) by (intros x a b Hx; unfold assert_equal; destruct (list_eq_dec _ _ _); cbn; [tauto|]; intros [<-|[]]; apply Hx; exact I).
  assert (V : forall n p, (In (Passed n) (verdict n p) <-> p_code p = 0%Z) /\ (In (Failed n) (verdict n p) <-> p_code p <> 0%Z)).
  { intros n p. unfold verdict. destruct (Z.eqb_spec (p_code p) 0) as [H|H]; cbn; (split; [split|split]); intros; try assumption; try (left; reflexivity); try contradiction; destruct H0 as [H0|[]]; discriminate. }
  assert (A : forall (x : says) l1 l2 (P : Prop), ~ In x l1 -> (In x l2 <-> P) -> (In x (l1 ++ l2) <-> P)).
  { intros x l1 l2 P H1 H2. rewrite in_app_iff, H2. tauto. }
  intros n expected p. unfold test_set, test_01, test_02. clear -E Q V A. destruct (V n p) as [V1 V2]. destruct (V 1 p) as [V3 V4]. destruct (V 2 p) as [V5 V6].
  assert (NP : forall k, ~ is_error (Passed k)) by (intros k H; exact H). assert (NF : forall k, ~ is_error (Failed k)) by (intros k H; exact H).
  repeat apply conj; repeat (apply A; [first [apply Q|apply E]; auto|]); assumption.
Qed.
Definition build_ok (c : config_run) : Prop :=
  p_code (cr_build c) = 0%Z /\ In (if cr_cuda c then "CUDA enabled" else "CUDA disabled") (p_stdout (cr_build c)) /\
  In (if cr_kokkos c then "Kokkos enabled" else "Kokkos disabled") (p_stdout (cr_build c)).
Lemma existsb_eqb x l : existsb (String.eqb x) l = true <-> In x l.
Proof.
  rewrite existsb_exists. split; [intros [y [Hy E]]; apply String.eqb_eq in E; subst; exact Hy|intros H; exists x; split; [exact H|apply String.eqb_refl]].
Qed.
Lemma test_00_ok c : build_ok c -> exists l, test_00 (cr_cuda c) (cr_kokkos c) (cr_build c) = Ok l.
Proof.
  intros (H1 & H2 & H3). unfold test_00. rewrite (proj2 (Z.eqb_eq _ _) H1), (proj2 (existsb_eqb _ _) H2), (proj2 (existsb_eqb _ _) H3). eexists. reflexivity.
Qed.
Lemma test_00_build c l : test_00 (cr_cuda c) (cr_kokkos c) (cr_build c) = Ok l -> build_ok c.
Proof.
  unfold test_00, build_ok. destruct (Z.eqb_spec (p_code (cr_build c)) 0) as [H1|H1]; cbn [negb]; [|discriminate].
  destruct (existsb _ (p_stdout (cr_build c))) eqn:E2; cbn [negb]; [|discriminate]. apply existsb_eqb in E2.
  match goal with |- context [existsb ?f ?l] => destruct (existsb f l) eqn:E3 end; cbn [negb]; [|discriminate]. apply existsb_eqb in E3. auto.
Qed.
Lemma each_app {X} (l l' : list X) f : each (l ++ l') f = let '(a, ok) := each l f in if ok then let '(b, ok') := each l' f in (a ++ b, ok') else (a, false).
Proof.
  induction l as [|x l IH]; cbn [each app]; [destruct (each l' f); reflexivity|]. destruct (f x) as [a ok]. destruct ok; [|reflexivity]. rewrite IH.
  destruct (each l f) as [b okb]. destruct okb; [|reflexivity]. destruct (each l' f) as [c okc]. rewrite app_assoc. reflexivity.
Qed.
Lemma each_flat {X Y} (l : list X) (g : X -> list Y) f : each l (fun x => each (g x) f) = each (flat_map g l) f.
Proof. induction l as [|x l IH]; cbn [each flat_map]; [reflexivity|]. rewrite each_app, IH. reflexivity. Qed.
Lemma each_map {X Y} (l : list X) (g : X -> Y) f : each l (fun x => f (g x)) = each (map g l) f.
Proof. induction l as [|x l IH]; cbn [each map]; [reflexivity|]. rewrite IH. reflexivity. Qed.
Lemma each_ext {X} (l : list X) f g : (forall x, f x = g x) -> each l f = each l g.
Proof. intros H. induction l as [|x l IH]; cbn [each]; [reflexivity|]. rewrite H, IH. reflexivity. Qed.
Theorem C90_script_ends : forall configs, (snd (script configs) = true <-> Forall build_ok configs) /\
  forall before c after, configs = before ++ c :: after -> Forall build_ok before -> ~ build_ok c ->
    exists out, script configs = (out, false) /\ forall after', script (before ++ c :: after') = (out, false).
Proof.
  assert (ok : forall c, snd (config_shown c) = true <-> build_ok c).
  { intros c. unfold config_shown. split.
    - destruct (test_00 (cr_cuda c) (cr_kokkos c) (cr_build c)) as [l| | |] eqn:E; intros H; try discriminate H. eapply test_00_build; exact E.
    - intros H. destruct (test_00_ok H) as [l E]. rewrite E. reflexivity. }
  intros configs. split.
  - unfold script. induction configs as [|c configs IH]; cbn [each]; [split; [constructor|reflexivity]|]. specialize (ok c). destruct (config_shown c) as [a okc]. cbn [snd] in ok. destruct okc.
    + destruct (each configs config_shown) as [b okb]. cbn [snd] in *. rewrite IH. split; [intros H; constructor; [now apply ok|exact H]|intros H; now inversion H].
    + cbn [snd]. split; [discriminate|]. intros H. inversion H; subst. now apply ok.
  - intros before c after -> Hb Hc.
    assert (E : forall after', exists out, script (before ++ c :: after') = (out, false) /\ out = fst (script before) ++ fst (config_shown c)).
    { intros after'. unfold script. rewrite each_app.
      assert (B : snd (each before config_shown) = true).
      { clear -ok Hb. induction Hb as [|x l Hx _ IH]; [reflexivity|]. cbn [each]. apply ok in Hx. destruct (config_shown x) as [a o]. cbn [snd] in Hx. subst o. destruct (each l config_shown). exact IH. }
      destruct (each before config_shown) as [a o]. cbn [snd] in B. subst o. cbn [each].
      assert (C : snd (config_shown c) = false) by (destruct (snd (config_shown c)) eqn:S; [apply ok in S; contradiction|reflexivity]).
      destruct (config_shown c) as [a' o']. cbn [snd] in C. subst o'. eexists. split; reflexivity. }
    exists (fst (script before) ++ fst (config_shown c)). split; [|intros after']; destruct (E after) as (s1 & E1 & ->); [exact E1|]. destruct (E after') as (s2 & E2 & ->). exact E2.
Qed.
(** At this commit the list of Legion branches consists of triples, and main unpacks pairs: main raises ValueError in its first iteration; no test is run and nothing is
    printed, whatever has been built.  With pairs, main tests all configurations in order. *)
Theorem C90_main : (forall runs, main legion_branches runs = ([], false)) /\
  forall (tags : list (string * string)) (runs : string -> string -> bool -> bool -> process * list process),
    main (map (fun t => [fst t; snd t]) tags) (fun b t c k => Some (runs b t c k)) =
    script (flat_map (fun t => flat_map (fun bt => flat_map (fun c => map (fun k =>
      let '(p0, ps) := runs (fst t) bt c k in mk_config_run c k p0 ps) [false; true]) [false; true]) ["debug"; "release"]) tags).
Proof.
  split; [reflexivity|]. intros tags runs. unfold main, script.
  transitivity (each tags (fun t => each ["debug"; "release"] (fun bt => each [false; true] (fun c => each [false; true] (fun k =>
    config_shown (let '(p0, ps) := runs (fst t) bt c k in mk_config_run c k p0 ps)))))).
  - rewrite <- each_map. apply each_ext. intros [b x]. cbn [with_first_of_pair fst snd]. change build_types with (map (fun bt => [fst bt; snd bt]) [("debug", "Debug"); ("release", "RelWithDebInfo")]).
    rewrite <- each_map. change ["debug"; "release"] with (map (@fst string string) [("debug", "Debug"); ("release", "RelWithDebInfo")]). rewrite <- each_map. apply each_ext. intros [t y].
    cbn [with_first_of_pair fst snd]. apply each_ext. intros c. apply each_ext. intros k. destruct (runs b t c k) as [p0 ps]. reflexivity.
  - rewrite <- each_flat. apply each_ext. intros t. rewrite <- each_flat. apply each_ext. intros bt. rewrite <- each_flat. apply each_ext. intros c. now rewrite <- each_map.
Qed.
(** The build test accepts a build with the requested options and no other. *)
Theorem C90_build_test : forall use_cuda use_kokkos cuda kokkos,
  test_00 use_cuda use_kokkos (mk_process (test00_build cuda kokkos) [] 0) = if Bool.eqb use_cuda cuda && Bool.eqb use_kokkos kokkos then Ok [Passed 0] else AssertFail.
Proof. intros [] [] [] []; vm_compute; reflexivity. Qed.

(** ** The tests of the repository pass *)
(** what a run of a test program leaves: its own lines in the streams of the tasks that write them, in any interleaving, with any number of streams of ignored lines; standard
    error empty up to the ignored lines; return code 0 *)
Definition good_run (streams : list (list string)) (p : process) : Prop :=
  exists noise, (forall t line, In t noise -> In line t -> ignorable line) /\ interleave (streams ++ noise) (p_stdout p) /\ clean_stderr p /\ p_code p = 0%Z.
Lemma good_run_in streams p line : good_run streams p -> (forall t, In t streams -> In line t -> ~ ignorable line) ->
  (In line (p_stdout p) /\ ~ ignorable line) <-> exists t, In t streams /\ In line t.
Proof.
  intros (noise & Hn & Hi & _) Hs. rewrite (interleave_in Hi). split.
  - intros [[t [Ht Hl]] Hg]. apply in_app_or in Ht. destruct Ht as [Ht|Ht]; [exists t; auto|]. exfalso. apply Hg. eapply Hn; eassumption.
  - intros [t [Ht Hl]]. split; [exists t; split; [apply in_or_app; left; exact Ht|exact Hl]|eapply Hs; eassumption].
Qed.
Lemma set_test_passes n expected streams p : StronglySorted before expected -> forallb (fun line => negb (ignored line)) expected = true -> good_run streams p ->
  (forall line, In line expected <-> exists t, In t streams /\ In line t) -> test_set n expected p = [Passed n].
Proof.
  intros Hs Hne Hg He.
  assert (Hni : forall line, In line expected -> ~ ignorable line).
  { intros line Hl. rewrite forallb_forall in Hne. specialize (Hne line Hl). rewrite <- ignored_spec. destruct (ignored line); [discriminate|congruence]. }
  assert (R : ~ reports_error (test_set n expected p)).
  { apply (set_test_error n p Hs). split; [|destruct Hg as (? & _ & _ & H & _); exact H]. intros line. rewrite (@good_run_in streams p line Hg); [apply He|].
    intros t Ht Hl. apply Hni. apply He. exists t. auto. }
  destruct Hg as (noise & _ & _ & _ & Hc). unfold test_set, verdict in *. rewrite Hc, Z.eqb_refl in *. rewrite !reports_app, reports_equal, reports_empty in R.
  unfold assert_equal. destruct (list_eq_dec string_dec _ _) as [E|E]; [|exfalso; apply R; left; exact E].
  destruct (shown_stderr p) as [|a l]; [reflexivity|exfalso; apply R; right; left; discriminate].
Qed.

Definition points (a n : nat) : list point := map (fun i => [Z.of_nat i]) (seq a n).
Lemma in_points a n p : In p (points a n) <-> exists i, (a <= i < a + n)%nat /\ p = [Z.of_nat i].
Proof.
  unfold points. rewrite in_map_iff. split; [intros [i [<- Hi]]|intros [i [Hi ->]]]; exists i.
  - apply in_seq in Hi. split; [lia|reflexivity].
  - split; [reflexivity|]. apply in_seq. lia.
Qed.
(** the lines of a partition depend on the points of its pieces only *)
Lemma task_lines_same name k P1 P2 : Forall2 (fun a b : list point => forall p, In p a <-> In p b) P1 P2 -> forall line,
  (exists t, In t (map (fun cp => map (line_text name) (print_index_task (fst cp) (snd cp))) (combine (seq k (length P1)) P1)) /\ In line t) <->
  (exists t, In t (map (fun cp => map (line_text name) (print_index_task (fst cp) (snd cp))) (combine (seq k (length P2)) P2)) /\ In line t).
Proof.
  intros H. revert k. induction H as [|a b P1 P2 Hab _ IH]; intros k line; [reflexivity|]. cbn [length seq combine map fst snd].
  assert (E : In line (map (line_text name) (print_index_task k a)) <-> In line (map (line_text name) (print_index_task k b))).
  { unfold print_index_task. rewrite !map_map, !in_map_iff. split; intros [p [<- Hp]]; exists p; (split; [reflexivity|apply Hab; exact Hp]). }
  specialize (IH (S k) line). split; intros [t [[<-|Ht] Hl]].
  - eexists. split; [left; reflexivity|apply E; exact Hl].
  - destruct (proj1 IH) as [t' [Ht' Hl']]; [exists t; auto|]. exists t'. split; [right; exact Ht'|exact Hl'].
  - eexists. split; [left; reflexivity|apply E; exact Hl].
  - destruct (proj2 IH) as [t' [Ht' Hl']]; [exists t; auto|]. exists t'. split; [right; exact Ht'|exact Hl'].
Qed.
Lemma exists_in_app X (l1 l2 : list (list X)) x : (exists t, In t (l1 ++ l2) /\ In x t) <-> (exists t, In t l1 /\ In x t) \/ (exists t, In t l2 /\ In x t).
Proof.
  split.
  - intros [t [Ht Hx]]. apply in_app_or in Ht. destruct Ht; [left|right]; exists t; auto.
  - intros [[t [Ht Hx]]|[t [Ht Hx]]]; exists t; (split; [apply in_or_app; auto|exact Hx]).
Qed.
Definition range4 := [points 0 5; points 5 5; points 10 5; points 15 5].
Definition kernel4 := [points 0 14; points 14 15; points 29 15; points 44 14].
Definition domain4 := [points 0 6; points 4 7; points 9 7; points 14 6].
Lemma expected_partition_generated :
  sorted_set ([heading "range_partition" 4; heading "matrix_partition" 4; heading "domain_partition" 4] ++
    concat (task_lines "range_partition" range4) ++ concat (task_lines "matrix_partition" kernel4) ++ concat (task_lines "domain_partition" domain4)) = expected_partition_output.
Proof. vm_compute. reflexivity. Qed.

(** Test03 and Test04: 20 points in four equal pieces, in any arithmetic, the COO and the CSR matrix, any schedule of the generator and of the print
    tasks, and any number (at least one) of replicas of the top-level task, each of which prints the three headings. *)
Theorem C90_partition_tests_pass : forall (T : Type) (A : arith T) lg q (m : matrix T) domain replicas n,
  legion_ok lg -> grid_1d 20 (is_points lg (part_parent lg q)) -> grid_1d 20 (is_points lg domain) -> laplacian_matrix_in A 20 (part_parent lg q) m ->
  part_pieces lg q = [points 0 5; points 5 5; points 10 5; points 15 5] -> (1 <= replicas)%nat ->
  exists top tasks, partition_test lg m q domain = Ok (top, tasks) /\
    forall p, good_run (repeat top replicas ++ tasks) p -> test_set n expected_partition_output p = [Passed n].
Proof.
  intros T A lg q m domain replicas n Hlg Hg Hgd Hm Hq Hr.
  destruct (@C77_laplacian_partitions T A lg 20 q m domain Hlg ltac:(lia) Hg Hgd Hm) as (kps & Ek & Lk & Ld & _).
  unfold partition_test. rewrite Ek. cbn [obind]. do 2 eexists. split; [reflexivity|]. intros p Hp.
  set (dps := domain_from_kernel lg m domain kps) in *. rewrite Hq in *. cbn [length] in Lk, Ld.
  assert (B : forall c a kpiece dpiece, nth_error [points 0 5; points 5 5; points 10 5; points 15 5] c = Some (points a 5) -> (a + 4 < 20)%nat ->
    nth_error kps c = Some kpiece -> nth_error dps c = Some dpiece ->
    (forall x, In x kpiece <-> In x (points (3 * a - 1) (Nat.min (3 * a + 13) 57 + 1 - (3 * a - 1)))) /\ (forall x, In x dpiece <-> In x (points (a - 1) (Nat.min (a + 5) 19 + 1 - (a - 1))))).
  { intros c a kpiece dpiece Hc Ha H1 H2.
    destruct (@C77_block_partitions T A lg 20 q m domain kps c a (a + 4) kpiece dpiece Hlg ltac:(lia) Hg Hgd Hm ltac:(lia)) as [K D]; [|exact Ek|exact H1|exact H2|].
    - rewrite Hq. replace (S (a + 4) - a)%nat with 5%nat by lia. exact Hc.
    - split; intros x; rewrite ?K, ?D, in_points; split; intros [k [Hk ->]]; exists k; (split; [|reflexivity]); lia. }
  destruct kps as [|k0 [|k1 [|k2 [|k3 [|]]]]]; try discriminate Lk. destruct dps as [|d0 [|d1 [|d2 [|d3 [|]]]]] eqn:Ed; try discriminate Ld.
  assert (Hk : Forall2 (fun a b : list point => forall p, In p a <-> In p b) [k0; k1; k2; k3] kernel4 /\ Forall2 (fun a b : list point => forall p, In p a <-> In p b) [d0; d1; d2; d3] domain4).
  { destruct (B 0 0 k0 d0 eq_refl ltac:(lia) eq_refl eq_refl)%nat as [K0 D0]. destruct (B 1 5 k1 d1 eq_refl ltac:(lia) eq_refl eq_refl)%nat as [K1 D1].
    destruct (B 2 10 k2 d2 eq_refl ltac:(lia) eq_refl eq_refl)%nat as [K2 D2]. destruct (B 3 15 k3 d3 eq_refl ltac:(lia) eq_refl eq_refl)%nat as [K3 D3].
    split; (constructor; [assumption|]); (constructor; [assumption|]); (constructor; [assumption|]); (constructor; [assumption|]); constructor. }
  destruct Hk as [Hk Hd'].
  eapply set_test_passes; [exact expected_partition_sorted|vm_compute; reflexivity|exact Hp|].
  intros line. rewrite <- expected_partition_generated, sorted_set_in, !in_app_iff, !exists_in_app.
  assert (C : forall name P, In line (concat (task_lines name P)) <-> exists t, In t (task_lines name P) /\ In line t) by (intros name P; apply in_concat).
  rewrite !C. unfold task_lines. rewrite (task_lines_same "matrix_partition" 0 Hk line), (task_lines_same "domain_partition" 0 Hd' line).
  cbn [length kernel4 domain4 range4].
  assert (R : forall l : list string, (exists t, In t (repeat l replicas) /\ In line t) <-> In line l).
  { intros l. split; [intros [t [Ht Hl]]; apply repeat_spec in Ht; subst; exact Hl|]. intros Hl. exists l. split; [|exact Hl]. destruct replicas; [lia|left; reflexivity]. }
  rewrite R. reflexivity.
Qed.

(** "std::cout << x" with the default six digits, for the values that occur here: +0, and numbers that round to an integer at six digits (C82) *)
Definition prints_as (x : spec_float) (text : string) : Prop :=
  (x = S754_zero false /\ text = "0") \/ (is_number x /\ exists z, shows_six (fvalue x) z /\ text = decimal z).
Lemma shows_six_unique x z z' : shows_six x z -> shows_six x z' -> z = z'.
Proof.
  intros H H'. destruct (Z.eq_dec z z') as [E|E]; [exact E|exfalso].
  assert (M : forall u e, (e <= 5)%Z -> exists n, (IZR n * powerRZ 10 (e - 5) = IZR u)%R).
  { intros u e He. exists (u * 10 ^ (5 - e))%Z. rewrite mult_IZR. rewrite Rmult_assoc. replace (IZR (10 ^ (5 - e)) * powerRZ 10 (e - 5))%R with 1%R; [ring|].
    replace (IZR (10 ^ (5 - e))) with (powerRZ 10 (5 - e)).
    - rewrite <- powerRZ_add by lra. replace (5 - e + (e - 5))%Z with 0%Z by ring. reflexivity.
    - replace (5 - e)%Z with (Z.of_nat (Z.to_nat (5 - e))) by lia. rewrite <- pow_powerRZ, pow_IZR. reflexivity. }
  assert (H1 := H). assert (H2 := H'). destruct H1 as (e & He & Hb & _). destruct (M z e He) as [k Hk]. destruct (M z' e He) as [k' Hk'].
  assert (Q := @C82_six_digits x z H e k' Hb). assert (Q' := @C82_six_digits x z' H' e k Hb). rewrite Hk' in Q. rewrite Hk in Q'.
  assert (N : IZR z' <> IZR z) by (intros Hz; apply eq_IZR in Hz; congruence). specialize (Q N). specialize (Q' (fun h => N (eq_sym h))). lra.
Qed.
Lemma shows_six_nonzero z : ~ shows_six 0 z.
Proof. intros (e & _ & [H _] & _). rewrite Rabs_R0 in H. assert (P : (0 < powerRZ 10 e)%R) by (apply powerRZ_lt; lra). lra. Qed.
Lemma prints_as_zero text : prints_as (S754_zero false) text -> text = "0".
Proof. intros [[_ H]|[_ [z [H _]]]]; [exact H|]. exfalso. exact (shows_six_nonzero H). Qed.
Lemma prints_as_six x z text : shows_six (fvalue x) z -> prints_as x text -> text = decimal z.
Proof.
  intros H [[-> _]|[_ [z' [H' ->]]]]; [exfalso; exact (shows_six_nonzero H)|]. f_equal. eapply shows_six_unique; eassumption.
Qed.

(** Test05 and Test06 as they run, in double precision: 100 points, ten steps, any partition, any order of the reductions, any schedule *)
Theorem C90_cg_tests_pass : forall lg red q m st s n,
  legion_ok lg -> legal_reduction binary64 red -> grid_1d 100 (is_points lg (part_parent lg q)) -> partition_disjoint lg q -> partition_complete lg q ->
  laplacian_matrix_in binary64 100 (part_parent lg q) m ->
  exists sol c prints lns st',
    (let* y := cg_test binary64 lg red q m 10 in let* ns := print_in_order binary64 (cg_norms (snd y)) in ret (y, ns)) st = Ok ((sol, c), prints, lns, st') /\
    forall tr lines p, execution (map (@op_of _) lns) tr -> Forall2 prints_as (shown prints (map snd tr) s) lines -> good_run [lines] p ->
      test_set n expected_cg_output p = [Passed n].
Proof.
  intros lg red q m st s n Hlg Hred Hg Hd Hc Hm.
  destruct (@C82_cg_tests_print_in_double lg red q m 10 st s Hlg Hred Hg Hd Hc Hm (le_n 10)) as (sol & c & prints & lns & st' & E & H).
  exists sol, c, prints, lns, st'. split; [exact E|]. intros tr lines p Ht Hl Hp. specialize (H tr Ht).
  assert (El : lines = map decimal (firstn 11 expected_text)).
  { clear - H Hl. revert H lines Hl. generalize (shown prints (map snd tr) s) as xs. generalize (firstn 11 expected_text) as zs. intros zs xs H. induction H as [|x z xs zs [_ [_ Hx]] _ IH]; intros lines Hl.
    - inversion Hl. reflexivity.
    - inversion Hl as [|? text ? lines' Hp Hl']; subst. cbn [map]. f_equal; [eapply prints_as_six; eassumption|apply IH; exact Hl']. }
  eapply set_test_passes; [exact expected_cg_sorted|vm_compute; reflexivity|exact Hp|]. subst lines.
  assert (S : sorted_set (map decimal (firstn 11 expected_text)) = expected_cg_output) by (vm_compute; reflexivity).
  intros line. rewrite <- S, sorted_set_in. split; [intros Hl'; eexists; split; [left; reflexivity|exact Hl']|intros [t [[<-|[]] Hl']]; exact Hl'].
Qed.

(** Test02: the lines one of its six tasks can write (float or double, any space and partition) *)
Definition vector_test_lines (lines : list string) : Prop :=
  exists fp fe lg red q env st s y prints lns st' tr,
    ((fp, fe) = (24, 128)%Z \/ (fp, fe) = (53, 1024)%Z) /\ legion_ok lg /\ legal_reduction (ieee fp fe) red /\ partition_disjoint lg q /\ partition_complete lg q /\ (forall k, (env k < next_fut st)%nat) /\
    (let c n d := convert fp fe (literal n d) in
     (let* y := whole_program (ieee fp fe) lg red [q; q; q] env (vector_test (c 15 10) (c 27 10) (c 1 1) (c (-1) 1) (c (-5) 10))%Z in
      let* ns := print_in_order (ieee fp fe) [snd y 0%nat] in ret (y, ns)) st = Ok (y, prints, lns, st')) /\
    execution (map (@op_of _) lns) tr /\ Forall2 prints_as (shown prints (map snd tr) s) lines.
Lemma vector_test_zero lines : vector_test_lines lines -> lines = ["0"].
Proof.
  intros (fp & fe & lg & red & q & env & st & s & y & prints & lns & st' & tr & Hf & Hlg & Hred & Hd & Hc & He & E & Ht & Hl).
  destruct (@C77_vector_test fp fe Hf lg red q env st s Hlg Hred Hd Hc He) as (y' & prints' & lns' & st'' & E' & H). cbv zeta in E, E'. rewrite E in E'.
  injection E' as <- <- <- <-. rewrite (H tr Ht) in Hl. inversion Hl as [|? t ? l H1 H2]; subst. inversion H2; subst. rewrite (prints_as_zero H1). reflexivity.
Qed.
Lemma interleave_perm X (ts : list (list X)) out : interleave ts out -> Permutation out (concat ts).
Proof.
  induction 1 as [ts Hn|ts1 a t ts2 tr H IH].
  - assert (E : concat ts = []) by (induction Hn as [|t ts -> _ IH]; [reflexivity|exact IH]). rewrite E. constructor.
  - rewrite concat_app in *. cbn [concat] in *. rewrite IH. cbn [app]. apply Permutation_middle.
Qed.
Theorem C90_vector_test_passes : forall outs p, Forall vector_test_lines outs -> length outs = 6%nat -> good_run outs p -> test_02 p = [Passed 2].
Proof.
  intros outs p Ho Ln (noise & Hn & Hi & He & Hc). assert (R : ~ reports_error (test_02 p)).
  { apply C90_vector_test_exact. split; [|exact He]. apply Permutation_repeat. apply interleave_perm in Hi. rewrite concat_app in Hi.
    assert (N : filter (fun line => negb (ignored line)) (concat noise) = []).
    { assert (G : forall l, (forall x, In x l -> ignorable x) -> filter (fun line => negb (ignored line)) l = []).
      { induction l as [|x l IH]; intros H; [reflexivity|]. cbn [filter]. rewrite (proj2 (ignored_spec x) (H x (or_introl eq_refl))). apply IH. intros z Hz. apply H. right. exact Hz. }
      apply G. intros x Hx. apply in_concat in Hx. destruct Hx as [t [Ht Hx]]. eapply Hn; eassumption. }
    assert (Z : concat outs = repeat "0" 6).
    { rewrite <- Ln. clear - Ho. induction Ho as [|l outs Hl _ IH]; [reflexivity|]. cbn [concat length repeat]. rewrite (vector_test_zero Hl), IH. reflexivity. }
    assert (F : Permutation (filter (fun line => negb (ignored line)) (p_stdout p)) (filter (fun line => negb (ignored line)) (concat outs ++ concat noise))).
    { clear - Hi. induction Hi; cbn [filter]; [constructor|destruct (negb (ignored x)); [constructor|]; assumption|destruct (negb (ignored x)), (negb (ignored y)); try reflexivity; constructor|etransitivity; eassumption]. }
    rewrite filter_app, N, app_nil_r, Z in F. exact F. }
  unfold test_02, verdict in *. rewrite Hc, Z.eqb_refl in *. rewrite !reports_app, reports_equal, reports_empty in R.
  unfold assert_equal. destruct (list_eq_dec string_dec _ _) as [E|E]; [|exfalso; apply R; left; exact E].
  destruct (shown_stderr p) as [|a l]; [reflexivity|exfalso; apply R; right; left; discriminate].
Qed.

(** The lines are those of print_index_partition (PrintScalar.v, property C79) written as text *)
Lemma task_lines_printed lg space_type q n tasks name : print_index_partition lg space_type q = Ok (n, tasks) ->
  n = length (part_pieces lg q) /\ task_lines name (part_pieces lg q) = map (map (line_text name)) tasks.
Proof.
  unfold print_index_partition. destruct (_ =? _)%nat; [|discriminate]. intros H. injection H as <- <-. split; [reflexivity|]. unfold task_lines. rewrite map_map. reflexivity.
Qed.

(** ** Concrete cases *)
(** a space of 20 points in four pieces; both matrices; the four processes with everything printed in program order, two replicas, and a registration line *)
Definition lg20 : legion := mk_legion (fun s => if (s =? 1)%nat then points 0 20 else []) (fun q => if (q =? 2)%nat then 1%nat else 0%nat)
  (fun q => q) (fun q => if (q =? 2)%nat then [points 0 5; points 5 5; points 10 5; points 15 5] else []).
Lemma lg20_ok : legion_ok lg20.
Proof.
  assert (ND : forall a n, NoDup (points a n)) by (intros a n; apply FinFun.Injective_map_NoDup; [intros x y E; injection E as E; lia|apply seq_NoDup]).
  split.
  - intros s. unfold lg20. cbn [is_points]. destruct (s =? 1)%nat; [apply ND|constructor].
  - intros q piece. unfold lg20. cbn [is_points part_pieces part_parent]. destruct (q =? 2)%nat; [|intros []]. cbn [Nat.eqb In].
    intros [<-|[<-|[<-|[<-|[]]]]]; (split; [apply ND|]); intros p Hp; apply in_points in Hp; destruct Hp as [i [Hi ->]]; apply in_points; exists i; (split; [lia|reflexivity]).
Qed.
Example C90_example : exists co cs, laplacian_matrix_in binary64 20 1 (COO co) /\ laplacian_matrix_in binary64 20 1 (CSR cs) /\
  forall m, m = COO co \/ m = CSR cs -> exists top tasks p, partition_test lg20 m 2 1 = Ok (top, tasks) /\ good_run (repeat top 2 ++ tasks) p /\ In "domain_partition (2) <15>" (p_stdout p) /\
    test_set 3 expected_partition_output p = [Passed 3] /\
    (* without one line the output is reported wrong, and passed *)
    exists p', test_set 3 expected_partition_output p' = [NotEqual (removelast expected_partition_output) expected_partition_output; Passed 3].
Proof.
  destruct (laplacian_in_exist binary64 20 1) as [[co H1] [cs H2]]. exists co, cs. split; [exact H1|]. split; [exact H2|]. intros m Hm.
  assert (Hm' : laplacian_matrix_in binary64 20 (part_parent lg20 2) m) by (destruct Hm as [-> | ->]; assumption).
  assert (Hg : grid_1d 20 (is_points lg20 1)).
  { intros p. unfold lg20. cbn [is_points Nat.eqb]. rewrite in_points. split; intros [i [Hi ->]]; exists i; (split; [lia|reflexivity]). }
  destruct (@C90_partition_tests_pass _ binary64 lg20 2 m 1 2 3 lg20_ok Hg Hg Hm' eq_refl ltac:(lia)) as (top & tasks & E & H).
  set (p := mk_process (concat ((repeat top 2 ++ tasks) ++ [["[LegionSolvers] Registering task axpy"]])) [] 0).
  assert (Hp : good_run (repeat top 2 ++ tasks) p).
  { exists [["[LegionSolvers] Registering task axpy"]]. split; [|split; [apply interleave_concat|split; [intros x []|reflexivity]]].
    intros t line [<-|[]] [<-|[]]. exists " axpy". left. reflexivity. }
  assert (Pass := H p Hp). exists top, tasks, p. split; [exact E|]. split; [exact Hp|]. split; [|split; [exact Pass|]].
  - assert (N : ~ reports_error (test_set 3 expected_partition_output p)) by (rewrite Pass; intros [x [[<-|[]] Hx]]; exact Hx).
    apply (C90_set_tests 3 p) in N. destruct N as [N _]. apply N. apply existsb_eqb. vm_compute. reflexivity.
  - exists (mk_process (rev (removelast expected_partition_output)) [] 0). vm_compute. reflexivity.
Qed.
