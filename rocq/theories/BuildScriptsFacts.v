(** BuildScriptsFacts: rules for reasoning about the build scripts of BuildScripts.v. *)
From Coq Require Import String List ZArith Bool Lia.
From Verif Require Import BuildScripts.
Import ListNotations.
Set Implicit Arguments.
Local Open Scope string_scope.
Local Open Scope list_scope.

(** ** Specification vocabulary *)
(** p is d or lies below d; p lies properly below d *)
Definition below (d p : path) : Prop := exists rest, p = d ++ rest.
Definition inside (d p : path) : Prop := exists x rest, p = d ++ x :: rest.
(** the commands among the events, with the directories they were started in *)
Definition commands (h : list event) : list (path * list word) := flat_map (fun e => match e with Ran d cmd _ => [(d, cmd)] | _ => [] end) h.
(** the install prefix given to the last configuration in directory d *)
Definition prefix_in (cmd : list word) : option path :=
  fold_left (fun acc w => match w with D k (VPath q) => if String.eqb k "CMAKE_INSTALL_PREFIX" then Some q else acc | _ => acc end) cmd None.
Definition install_prefix (h : list event) (d : path) : option path :=
  fold_left (fun acc e => match e with Ran d' cmd _ => if path_eqb d d' then match prefix_in cmd with Some q => Some q | None => acc end else acc | _ => acc end) h None.
(** what commands are expected to leave alone: git clone creates the named directory; make install also writes below the install prefix configured in its directory;
    every other command writes only below the directory it is started in *)
Definition may_write (h : list event) (d : path) (cmd : list word) (p : path) : Prop :=
  (exists b u dir, cmd = [W "git"; W "clone"; W "--branch"; W b; W u; W dir] /\ below (d ++ [dir]) p) \/
  ((forall b u dir, cmd <> [W "git"; W "clone"; W "--branch"; W b; W u; W dir]) /\ inside d p) \/
  (cmd = [W "make"; W "install"] /\ exists q, install_prefix h d = Some q /\ below q p).
Definition well_behaved (env : effect_of_commands) : Prop :=
  forall h d cmd t p, fst (env h d cmd t) p <> t p -> may_write h d cmd p.
(** a command that did not stop the script: it succeeded, or it is ctest *)
Definition passed (e : event) : Prop := match e with Ran _ cmd e => e = Succeeded \/ (cmd = [W "ctest"] /\ e = NotSucceeded) | _ => True end.
(** the last thing that happened is a command that stopped the script; everything before it passed *)
Definition stopped_by_command (new : list event) : Prop := exists before d cmd e, new = before ++ [Ran d cmd e] /\ Forall passed before /\ ~ passed (Ran d cmd e).

(** ** The judgement: from [st], [m] comes back to the same directory, changes only what F allows, and runs the commands of the plan in order; it runs all of them unless a
    command stops it or R *)
Definition J (F : path -> Prop) (R : Prop) (plan : list (path * list word)) (m : script unit) (st : computer) : Prop :=
  let '(st', r) := m st in
  cwd st' = cwd st /\ (forall p, files st' p <> files st p -> F p) /\
  exists todo new, plan = commands new ++ todo /\ past st' = past st ++ new /\
    match r with Some _ => todo = [] /\ Forall passed new | None => stopped_by_command new \/ (Forall passed new /\ R) end.

Lemma node_dec (a b : node) : {a = b} + {a <> b}. Proof. decide equality. Qed.
Lemma path_eqb_spec p q : reflect (p = q) (path_eqb p q).
Proof. unfold path_eqb. destruct (list_eq_dec string_dec p q); constructor; assumption. Qed.
Lemma starts_spec d : forall p, starts d p = true <-> below d p.
Proof.
  induction d as [|x d IH]; intros p; cbn; [split; [exists p; reflexivity|reflexivity]|]. destruct p as [|y p].
  - split; [discriminate|intros [r E]; discriminate].
  - rewrite andb_true_iff, IH. destruct (String.eqb_spec x y) as [->|N].
    + split; [intros [_ [r ->]]; exists r; reflexivity|intros [r E]; injection E as ->; split; [reflexivity|exists r; reflexivity]].
    + split; [intros [E _]; discriminate|intros [r E]; injection E as -> ->; congruence].
Qed.
Lemma is_dir_true n : is_dir n = true <-> n = Dir. Proof. destruct n; cbn; split; congruence. Qed.
Lemma commands_app a b : commands (a ++ b) = commands a ++ commands b. Proof. apply flat_map_app. Qed.
Lemma below_refl d : below d d. Proof. exists []. now rewrite app_nil_r. Qed.
Lemma inside_below d p : inside d p -> below d p. Proof. intros (x & r & ->). exists (x :: r). reflexivity. Qed.
Lemma below_app d d' p : below (d ++ d') p -> below d p. Proof. intros [r ->]. exists (d' ++ r). now rewrite app_assoc. Qed.
Lemma below_inside d x d' p : below (d ++ x :: d') p -> inside d p. Proof. intros [r ->]. exists x, (d' ++ r). now rewrite <- app_assoc. Qed.
Lemma inside_irrefl d : ~ inside d d.
Proof. intros (x & r & E). apply (f_equal (@length string)) in E. rewrite app_length in E. cbn in E. lia. Qed.

Lemma J_weaken (F F' : path -> Prop) (R R' : Prop) plan m st : J F R plan m st -> (forall p, F p -> F' p) -> (R -> R') -> J F' R' plan m st.
Proof.
  unfold J. destruct (m st) as [st' r]. intros (H1 & H2 & todo & new & H3 & H4 & H5) HW HR. split; [exact H1|]. split; [intros p Hp; apply HW, H2, Hp|].
  exists todo, new. split; [exact H3|]. split; [exact H4|]. destruct r; [exact H5|]. destruct H5 as [H5|[H5 H6]]; [left; exact H5|right; split; [exact H5|apply HR, H6]].
Qed.
Lemma J_ret F R st : J F R [] (ret tt) st.
Proof. cbn. split; [reflexivity|]. split; [intros p H; now destruct H|]. exists [], []. repeat split; [now rewrite app_nil_r|constructor]. Qed.
Lemma J_raise F (R : Prop) plan st : R -> J F R plan raise st.
Proof. intros HR. cbn. split; [reflexivity|]. split; [intros p H; now destruct H|]. exists plan, []. split; [reflexivity|]. split; [now rewrite app_nil_r|]. right. split; [constructor|exact HR]. Qed.
Lemma stopped_after a b : Forall passed a -> stopped_by_command b -> stopped_by_command (a ++ b).
Proof. intros Ha (pre & d & cmd & e & -> & Hp & He). exists (a ++ pre), d, cmd, e. split; [now rewrite app_assoc|]. split; [apply Forall_app; split; assumption|exact He]. Qed.
Lemma J_bind F R p1 p2 m (k : unit -> script unit) st : J F R p1 m st -> (forall st1, m st = (st1, Some tt) -> cwd st1 = cwd st -> (forall p, files st1 p <> files st p -> F p) -> J F R p2 (k tt) st1) ->
  J F R (p1 ++ p2) (bind m k) st.
Proof.
  unfold J, bind. destruct (m st) as [st1 [[]|]].
  - intros (H1 & H2 & todo & new & H3 & H4 & H5 & H6) HK. specialize (HK st1 eq_refl H1 H2). destruct (k tt st1) as [st2 r]. destruct HK as (K1 & K2 & todo' & new' & K3 & K4 & K5).
    split; [congruence|]. split. { intros p Hp. destruct (node_dec (files st2 p) (files st1 p)) as [E|E]; [apply H2; congruence|apply K2, E]. }
    exists todo', (new ++ new'). subst todo. rewrite app_nil_r in H3. split; [rewrite H3, K3, commands_app, app_assoc; reflexivity|]. split; [rewrite K4, H4, app_assoc; reflexivity|].
    destruct r; [destruct K5 as [K5 K6]; split; [exact K5|apply Forall_app; split; assumption]|].
    destruct K5 as [K5|[K5 K6]]; [left; apply stopped_after; assumption|right; split; [apply Forall_app; split; assumption|exact K6]].
  - intros (H1 & H2 & todo & new & H3 & H4 & H5) _. split; [exact H1|]. split; [exact H2|]. exists (todo ++ p2), new. split; [rewrite H3, app_assoc; reflexivity|]. split; assumption.
Qed.
Lemma J_query F R plan {A} (q : (path -> node) -> A) k st : J F R plan (k (q (files st))) st -> J F R plan (bind (query q) k) st.
Proof. unfold J, bind, query. intros H. exact H. Qed.
Lemma J_getcwd F R plan k st : files st (cwd st) = Dir -> J F R plan (k (cwd st)) st -> J F R plan (bind getcwd k) st.
Proof. unfold J, bind, getcwd. intros ->. cbn [is_dir]. intros H. exact H. Qed.
Lemma J_assert F (R : Prop) plan b k st : (b = false -> R) -> (b = true -> J F R plan (k tt) st) -> J F R plan (bind (assert b) k) st.
Proof. destruct b; intros HR HK; [exact (HK eq_refl)|]. exact (@J_raise F R plan st (HR eq_refl)). Qed.
Lemma J_check F (R : Prop) plan (q : (path -> node) -> bool) k st : (q (files st) = false -> R) -> (q (files st) = true -> J F R plan (k tt) st) -> J F R plan (bind (bind (query q) assert) k) st.
Proof. intros HR HK. unfold J, bind, query. destruct (q (files st)) eqn:E; cbn [assert]; [apply HK; reflexivity|exact (@J_raise F R plan st (HR eq_refl))]. Qed.
Lemma J_remove (F : path -> Prop) (R : Prop) p st : (files st p = File -> R) -> (forall q, below p q -> F q) -> J F R [] (remove_directory p) st.
Proof.
  intros HF HW. unfold remove_directory. apply J_query. destruct (files st p) eqn:E; cbn [exists_]; [apply J_ret|apply J_check; rewrite E; [auto|discriminate]|].
  apply J_check; rewrite E; [discriminate|intros _]. cbn. split; [reflexivity|]. split.
  - intros q. destruct (starts p q) eqn:S; [intros _; apply HW, starts_spec, S|intros H; now destruct H].
  - exists [], [Removed p]. repeat split; repeat constructor.
Qed.
Lemma removed_gone p st st' : remove_directory p st = (st', Some tt) -> files st' p = Nothing /\ (forall q, ~ below p q -> files st' q = files st q).
Proof.
  unfold remove_directory, bind, query. destruct (files st p) eqn:E; cbn; rewrite ?E; cbn; intros H; inversion H; subst; cbn; auto.
  split; [now rewrite (proj2 (starts_spec p p) (below_refl p))|]. intros q Hq. destruct (starts p q) eqn:S; [apply starts_spec in S; contradiction|reflexivity].
Qed.
Lemma J_create (F : path -> Prop) (R : Prop) p st : (files st p <> Nothing -> R) -> (files st (removelast p) <> Dir -> R) -> F p -> J F R [] (create_directory p) st.
Proof.
  intros HE HP HW. unfold create_directory. apply J_check; destruct (files st p) eqn:E; cbn [exists_ negb]; try discriminate; intros _; try (apply HE; discriminate).
  unfold J, mkdir. rewrite E. destruct (is_dir (files st (removelast p))) eqn:D; cbn.
  - split; [reflexivity|]. split; [intros q; destruct (path_eqb_spec q p) as [->|N]; [intros _; exact HW|intros H; now destruct H]|]. exists [], [Created p]. repeat split; repeat constructor.
  - split; [reflexivity|]. split; [intros q H; now destruct H|]. exists [], []. split; [reflexivity|]. split; [now rewrite app_nil_r|]. right. split; [constructor|]. apply HP. intros H. rewrite H in D. discriminate.
Qed.
Lemma created_there p st st' : create_directory p st = (st', Some tt) -> files st' p = Dir /\ (forall q, q <> p -> files st' q = files st q).
Proof.
  unfold create_directory, bind, query, mkdir. destruct (files st p) eqn:E; cbn; try discriminate. rewrite E. destruct (is_dir (files st (removelast p))); cbn; intros H; inversion H; subst; cbn.
  split; [destruct (path_eqb_spec p p); [reflexivity|contradiction]|]. intros q N. destruct (path_eqb_spec q p); [contradiction|reflexivity].
Qed.
Definition at_dir (st : computer) (d : path) : computer := mk_computer (files st) d (past st).
Lemma J_change (F : path -> Prop) (R : Prop) plan d body st : files st (cwd st) = Dir -> (files st d <> Dir -> R) -> ~ F (cwd st) ->
  (files st d = Dir -> J F R plan body (at_dir st d)) -> J F R plan (change_directory d body) st.
Proof.
  intros Hc HR HW HB. unfold change_directory. apply J_getcwd; [exact Hc|]. unfold J, bind, chdir. destruct (is_dir (files st d)) eqn:E.
  - apply is_dir_true in E. specialize (HB E). unfold J in HB. fold (at_dir st d). destruct (body (at_dir st d)) as [st1 r]. destruct HB as (_ & H2 & todo & new & H3 & H4 & H5). cbn [files at_dir past cwd] in *.
    assert (Hd : files st1 (cwd st) = Dir) by (destruct (node_dec (files st1 (cwd st)) (files st (cwd st))) as [K|K]; [congruence|destruct HW; apply H2, K]).
    rewrite Hd. cbn [is_dir]. destruct r; cbn [cwd files past]; (split; [reflexivity|split; [exact H2|exists todo, new; auto]]).
  - apply J_raise. apply HR. intros H. rewrite H in E. discriminate.
Qed.
Section Env.
Variable env : effect_of_commands.
Hypothesis good : well_behaved env.
Lemma J_run (F : path -> Prop) (R : Prop) check cmd st : (check = true /\ cmd <> [W "ctest"]) \/ (check = false /\ cmd = [W "ctest"]) ->
  (forall p, may_write (past st) (cwd st) cmd p -> F p) -> J F R [(cwd st, cmd)] (run env check cmd) st.
Proof.
  intros Hc HW. unfold J, run. destruct (env (past st) (cwd st) cmd (files st)) as [t e] eqn:E. cbn [cwd files past]. split; [reflexivity|]. split.
  - intros p Hp. apply HW. apply (good (past st) (cwd st) cmd (files st) p). rewrite E. exact Hp.
  - exists [], [Ran (cwd st) cmd e]. split; [reflexivity|]. split; [reflexivity|].
    assert (S : ~ passed (Ran (cwd st) cmd e) -> stopped_by_command [Ran (cwd st) cmd e]) by (intros H; exists [], (cwd st), cmd, e; repeat split; [constructor|exact H]).
    destruct e; [left; apply S; cbn; intros [H|[_ H]]; discriminate|split; [reflexivity|repeat constructor]|].
    destruct Hc as [[-> Hc]|[-> Hc]]; [left; apply S; cbn; intros [H|[H _]]; [discriminate|contradiction]|].
    split; [reflexivity|]. constructor; [right; split; [exact Hc|reflexivity]|constructor].
Qed.
(** a command other than git clone and make install writes below its directory *)
Lemma writes_inside h d cmd p : (forall b u dir, cmd <> [W "git"; W "clone"; W "--branch"; W b; W u; W dir]) -> cmd <> [W "make"; W "install"] -> may_write h d cmd p -> inside d p.
Proof. intros H1 H2 [(b & u & dir & E & _)|[[_ H]|[E _]]]; [destruct (H1 _ _ _ E)|exact H|contradiction]. Qed.
Lemma ran_past check cmd st st' : run env check cmd st = (st', Some tt) -> exists e, past st' = past st ++ [Ran (cwd st) cmd e].
Proof. unfold run. destruct (env (past st) (cwd st) cmd (files st)) as [t e]. intros H. exists e. inversion H; subst. reflexivity. Qed.
Lemma install_prefix_app h e d : install_prefix (h ++ [e]) d =
  match e with Ran d' cmd _ => if path_eqb d d' then match prefix_in cmd with Some q => Some q | None => install_prefix h d end else install_prefix h d | _ => install_prefix h d end.
Proof. unfold install_prefix. rewrite fold_left_app. cbn [fold_left]. destruct e; reflexivity. Qed.
(** the commands of build_utilities.cmake *)
Definition configure (cmake_cmd : list word) (defines : list (string * value)) : list word := cmake_cmd ++ map (fun kv => D (fst kv) (snd kv)) defines.
Definition cmake_commands (cores : option Z) (d : path) (defines : list (string * value)) (build test install : bool) (cmake_cmd : list word) : list (path * list word) :=
  [(d, configure cmake_cmd defines)] ++
  (if build then [(d, [W "cmake"; W "--build"; W "."; W "--parallel"; N (match cores with Some n => n | None => 8%Z end)])] else []) ++
  (if test then [(d, [W "ctest"])] else []) ++ (if install then [(d, [W "make"; W "install"])] else []).
Lemma J_if (F : path -> Prop) R (b : bool) plan m st : (b = true -> J F R plan m st) -> J F R (if b then plan else []) (if b then m else ret tt) st.
Proof. destruct b; [auto|intros _; apply J_ret]. Qed.
Lemma J_cmake_body (F : path -> Prop) (R : Prop) cores d defines (build test install : bool) a rest st :
  cwd st = d -> (forall p, inside d p -> F p) -> (install = true -> exists q, prefix_in (configure (W a :: rest) defines) = Some q /\ forall p, below q p -> F p) ->
  a <> "git" -> a <> "make" -> a <> "ctest" ->
  J F R (cmake_commands cores d defines build test install (W a :: rest)) (
    run env true (configure (W a :: rest) defines) ;;
    (if build then run env true [W "cmake"; W "--build"; W "."; W "--parallel"; N (match cores with Some n => n | None => 8%Z end)] else ret tt) ;;
    (if test then run env false [W "ctest"] else ret tt) ;; (if install then run env true [W "make"; W "install"] else ret tt)) st.
Proof.
  intros C1 Ins Hq A1 A2 A3. unfold cmake_commands. apply (@J_bind F R [(d, _)]).
  { rewrite <- C1. apply J_run; [left; split; [reflexivity|intros H; inversion H; congruence]|]. intros p H. rewrite C1 in H. apply Ins. eapply writes_inside; [| |exact H]; intros; intros K; inversion K; congruence. }
  intros st2 E2 C2 F2. rewrite C1 in C2. destruct (ran_past _ _ _ E2) as [e2 P2]. rewrite C1 in P2.
  apply J_bind.
  { apply J_if. intros _. rewrite <- C2. apply J_run; [left; split; [reflexivity|discriminate]|]. intros p H. rewrite C2 in H. apply Ins. eapply writes_inside; [| |exact H]; intros; discriminate. }
  intros st3 E3 C3 F3.
  assert (P3 : exists l, past st3 = past st2 ++ l /\ forall h, install_prefix (h ++ l) d = install_prefix h d).
  { destruct build; [|inversion E3; subst; exists []; split; [now rewrite app_nil_r|intros; now rewrite app_nil_r]]. destruct (ran_past _ _ _ E3) as [e P]. eexists. split; [exact P|].
    intros h. rewrite install_prefix_app. destruct (path_eqb d (cwd st2)); reflexivity. }
  apply J_bind.
  { apply J_if. intros _. rewrite <- C2, <- C3. apply J_run; [right; split; reflexivity|]. intros p H. rewrite C3, C2 in H. apply Ins. eapply writes_inside; [| |exact H]; intros; discriminate. }
  intros st4 E4 C4 F4.
  assert (P4 : exists l, past st4 = past st3 ++ l /\ forall h, install_prefix (h ++ l) d = install_prefix h d).
  { destruct test; [|inversion E4; subst; exists []; split; [now rewrite app_nil_r|intros; now rewrite app_nil_r]]. destruct (ran_past _ _ _ E4) as [e P]. eexists. split; [exact P|].
    intros h. rewrite install_prefix_app. destruct (path_eqb d (cwd st3)); reflexivity. }
  apply J_if. intros Hi. destruct (Hq Hi) as (q & Q1 & Q2). assert (Cw : cwd st4 = d) by congruence. rewrite <- Cw. apply J_run; [left; split; [reflexivity|discriminate]|].
  intros p [(b & u & dir & E & _)|[[_ H]|[_ (q' & E & H)]]]; [discriminate|rewrite Cw in H; apply Ins, H|]. rewrite Cw in E.
  destruct P4 as (l4 & P4 & I4). destruct P3 as (l3 & P3 & I3). rewrite P4, I4, P3, I3, P2, install_prefix_app in E. destruct (path_eqb_spec d d) as [_|K]; [|destruct (K eq_refl)].
  rewrite Q1 in E. injection E as <-. apply Q2, H.
Qed.
Lemma J_cmake (F : path -> Prop) (R : Prop) cores d defines build test install a rest st :
  files st (cwd st) = Dir -> ~ F (cwd st) -> (files st d <> Nothing -> R) -> (files st (removelast d) <> Dir -> R) ->
  (forall p, below d p -> F p) -> (install = true -> exists q, prefix_in (configure (W a :: rest) defines) = Some q /\ forall p, below q p -> F p) ->
  a <> "git" -> a <> "make" -> a <> "ctest" ->
  J F R (cmake_commands cores d defines build test install (W a :: rest)) (cmake env cores d defines build test install (W a :: rest)) st.
Proof.
  intros Hc HF Hd Hp Hin Hq A1 A2 A3. unfold cmake. change (cmake_commands cores d defines build test install (W a :: rest)) with ([] ++ cmake_commands cores d defines build test install (W a :: rest)).
  apply J_bind; [apply J_create; auto; apply Hin, below_refl|]. intros st1 E1 C1 F1. destruct (created_there _ _ E1) as [D1 G1].
  assert (Nd : cwd st <> d) by (intros K; apply HF; rewrite K; apply Hin, below_refl).
  apply J_change; [rewrite C1, G1 by exact Nd; exact Hc|intros H; destruct (H D1)|rewrite C1; exact HF|]. intros _.
  apply J_cmake_body; auto. intros p H; apply Hin, inside_below, H.
Qed.
(** after a cmake that ends normally its directory is there *)
Lemma cmake_leaves_dir cores d defines build test install a rest st st' : files st (cwd st) = Dir -> ~ inside d (cwd st) -> 
  (install = true -> exists q, prefix_in (configure (W a :: rest) defines) = Some q /\ ~ below q d /\ ~ below q (cwd st)) -> a <> "git" -> a <> "make" -> a <> "ctest" ->
  cmake env cores d defines build test install (W a :: rest) st = (st', Some tt) -> files st' d = Dir.
Proof.
  intros Hc Hin Hq A1 A2 A3. unfold cmake. unfold bind at 1. destruct (create_directory d st) as [st1 [[]|]] eqn:E1; [|discriminate]. destruct (created_there _ _ E1) as [D1 G1].
  pose (F := fun p => inside d p \/ (install = true /\ exists q, prefix_in (configure (W a :: rest) defines) = Some q /\ below q p)).
  assert (C1 : cwd st1 = cwd st) by (clear -E1; unfold create_directory, bind, query, mkdir in E1; destruct (negb (exists_ (files st d))); cbn in E1; [|discriminate]; match type of E1 with context [if ?b then _ else _] => destruct b end; inversion E1; reflexivity).
  assert (K : J F True (cmake_commands cores d defines build test install (W a :: rest)) (change_directory d (
    run env true (configure (W a :: rest) defines) ;;
    (if build then run env true [W "cmake"; W "--build"; W "."; W "--parallel"; N (match cores with Some n => n | None => 8%Z end)] else ret tt) ;;
    (if test then run env false [W "ctest"] else ret tt) ;; (if install then run env true [W "make"; W "install"] else ret tt))) st1).
  { apply J_change; [rewrite C1; destruct (path_eqb_spec (cwd st) d) as [->|N]; [exact D1|rewrite G1 by exact N; exact Hc]|auto|rewrite C1|intros _].
    - intros [H|[H (q & Q & B)]]; [auto|]. destruct (Hq H) as (q' & Q' & _ & Q''). rewrite Q in Q'. injection Q' as <-. contradiction.
    - apply J_cmake_body; auto; [intros p H; left; exact H|]. intros H. destruct (Hq H) as (q & Q & _). exists q. split; [exact Q|]. intros p B. right. split; [exact H|]. exists q. auto. }
  intros E. unfold J in K. unfold configure in K. rewrite E in K. destruct K as (_ & K & _). destruct (node_dec (files st' d) (files st1 d)) as [L|L]; [congruence|].
  destruct (K _ L) as [H|[H (q & Q & B)]]; [destruct (inside_irrefl H)|]. destruct (Hq H) as (q' & Q' & Q'' & _). rewrite Q in Q'. injection Q' as <-. contradiction.
Qed.
End Env.
(** ** Loops *)
Lemma for_each_app {X} (l l' : list X) f st : for_each (l ++ l') f st = bind (for_each l f) (fun _ => for_each l' f) st.
Proof.
  revert st. induction l as [|x l IH]; intros st; [reflexivity|]. cbn [for_each app]. unfold bind in *. destruct (f x st) as [st1 [[]|]]; [|reflexivity]. rewrite IH. reflexivity.
Qed.
Lemma for_each_flat {X Y} (l : list X) (g : X -> list Y) f st : for_each l (fun x => for_each (g x) f) st = for_each (flat_map g l) f st.
Proof.
  revert st. induction l as [|x l IH]; intros st; [reflexivity|]. cbn [for_each flat_map]. rewrite for_each_app. unfold bind. destruct (for_each (g x) f st) as [st1 [[]|]]; [apply IH|reflexivity].
Qed.
Lemma for_each_map {X Y} (l : list X) (g : X -> Y) f st : for_each l (fun x => f (g x)) st = for_each (map g l) f st.
Proof. revert st. induction l as [|x l IH]; intros st; [reflexivity|]. cbn [for_each map]. unfold bind. destruct (f (g x) st) as [st1 [[]|]]; [apply IH|reflexivity]. Qed.
Lemma for_each_ext {X} (l : list X) f g st : (forall x st, In x l -> f x st = g x st) -> for_each l f st = for_each l g st.
Proof.
  revert st. induction l as [|x l IH]; intros st H; [reflexivity|]. cbn [for_each]. unfold bind. rewrite (H x st (or_introl eq_refl)). destruct (g x st) as [st1 [[]|]]; [|reflexivity].
  apply IH. intros. apply H. right. assumption.
Qed.
