(** PropsBuildScripts: property C93: what the build scripts do to the directory tree and which commands they run. *)
From Coq Require Import String Ascii List ZArith Bool Lia.
From Verif Require TestAll.
From Verif Require Import BuildScripts BuildScriptsFacts.
Import ListNotations.
Set Implicit Arguments.
Local Open Scope string_scope.
Local Open Scope list_scope.

(** ** Specification *)
(** the configurations, in the order of the loops *)
Definition configs_of (chosen : list (bool * bool)) (tag : string) : list config :=
  flat_map (fun t => map (fun ck => mk_config tag (fst ck) (snd ck) (fst t) (snd t)) chosen) [("debug", "Debug"); ("release", "RelWithDebInfo")].
Definition cuda_kokkos : list (bool * bool) := [(false, false); (false, true); (true, false); (true, true)].
Definition all_configs : list config := configs_of cuda_kokkos "master" ++ configs_of cuda_kokkos "r2412".
(** where Legion has been installed for this configuration; where this project is built for it *)
Definition library (s : settings) (c : config) : path := legion_library_path s c.
Definition build_dir (s : settings) (c : config) : path := legion_solvers_build_path s c.
Definition all_builds (s : settings) : path := scratch_dir s ++ ["LegionSolversBuild"].
(** cmake -D... in [source], for configuration c *)
Definition configure_command (s : settings) (source : path) (c : config) : list word :=
  [W "cmake"; P source; D "CMAKE_CXX_STANDARD" (VInt 17); D "CMAKE_CXX_FLAGS" (VText "-Wall -Wextra -pedantic -Wfatal-errors"); D "CMAKE_BUILD_TYPE" (VText (build_type c));
   D "Legion_DIR" (VPath (library s c ++ ["share"; "Legion"; "cmake"]))] ++
  (if use_kokkos c then [D "Kokkos_DIR" (VPath (kokkos_cmake_path s (use_cuda c)))] else []).

Lemma NoDup_app_intro {X} (l l' : list X) : NoDup l -> NoDup l' -> (forall x, In x l -> In x l' -> False) -> NoDup (l ++ l').
Proof.
  induction l as [|x l IH]; intros H H' D; [exact H'|]. inversion H; subst. cbn. constructor.
  - intros I. apply in_app_or in I. destruct I as [I|I]; [contradiction|]. apply (D x); [left; reflexivity|exact I].
  - apply IH; auto. intros y I I'. apply (D y); [right; exact I|exact I'].
Qed.
(** ** Names *)
Lemma chars_app a b : list_ascii_of_string (a ++ b)%string = list_ascii_of_string a ++ list_ascii_of_string b.
Proof. induction a as [|x a IH]; cbn; [reflexivity|now rewrite IH]. Qed.
Lemma chars_inj a b : list_ascii_of_string a = list_ascii_of_string b -> a = b.
Proof. intros H. rewrite <- (string_of_list_ascii_of_string a), <- (string_of_list_ascii_of_string b), H. reflexivity. Qed.
Definition known_type (t : string) : Prop := t = "debug" \/ t = "release".
Lemma joined b c k t : known_type t ->
  list_ascii_of_string (underscore_join [b; cuda_tag c; kokkos_tag k; t]) =
  match b with "" => [] | _ => list_ascii_of_string b ++ ["_"%char] end ++ list_ascii_of_string (underscore_join [cuda_tag c; kokkos_tag k; t]).
Proof.
  intros H. destruct b as [|x b]; [reflexivity|].
  assert (E : underscore_join [String x b; cuda_tag c; kokkos_tag k; t] = (String x b ++ ("_" ++ underscore_join [cuda_tag c; kokkos_tag k; t]))%string) by (destruct H as [-> | ->], c, k; reflexivity).
  rewrite E, chars_app, chars_app. cbn [list_ascii_of_string app]. now rewrite <- app_assoc.
Qed.
Lemma join_inj b c k t b' c' k' t' : known_type t -> known_type t' -> underscore_join [b; cuda_tag c; kokkos_tag k; t] = underscore_join [b'; cuda_tag c'; kokkos_tag k'; t'] ->
  b = b' /\ c = c' /\ k = k' /\ t = t'.
Proof.
  intros T T' H. apply (f_equal list_ascii_of_string) in H. rewrite !joined in H by assumption. apply (f_equal (@rev ascii)) in H. rewrite !rev_app_distr in H.
  assert (R : forall x b, rev (list_ascii_of_string (String x b) ++ ["_"%char]) = "_"%char :: rev (list_ascii_of_string (String x b))) by (intros; now rewrite rev_app_distr).
  destruct b as [|x b], b' as [|x' b']; rewrite ?R in H; destruct T as [-> | ->], T' as [-> | ->], c, c', k, k'; vm_compute (rev (list_ascii_of_string (underscore_join _))) in H;
    repeat match type of H with context [rev (list_ascii_of_string (String ?x ?b))] => let z := fresh in set (z := rev (list_ascii_of_string (String x b))) in H end; cbn [app rev] in H; try discriminate H; try (repeat split; reflexivity).
  all: injection H as H; repeat (split; [|try reflexivity]); try reflexivity.
  all: apply chars_inj; rewrite <- (rev_involutive (list_ascii_of_string (String x b))), <- (rev_involutive (list_ascii_of_string (String x' b'))); f_equal; exact H.
Qed.
Lemma library_joined b c k t : known_type t -> underscore_join ["legion"; b; cuda_tag c; kokkos_tag k; t] = ("legion_" ++ underscore_join [b; cuda_tag c; kokkos_tag k; t])%string.
Proof. intros [-> | ->]; destruct b, c, k; reflexivity. Qed.
Lemma append_inj_l a b b' : (a ++ b)%string = (a ++ b')%string -> b = b'.
Proof. induction a as [|x a IH]; cbn; [auto|intros H; injection H as H; auto]. Qed.
Lemma last_inj {X} (l : list X) x y : l ++ [x] = l ++ [y] -> x = y.
Proof. intros H. apply app_inv_head in H. now injection H. Qed.
(** Different configurations (of any branches, also with the same tag twice or an empty one) have different library directories and different build directories, none of
    which lies below another; the Kokkos libraries are different again. *)
Definition same_tags (c c' : config) : Prop := branch_tag c = branch_tag c' /\ use_cuda c = use_cuda c' /\ use_kokkos c = use_kokkos c' /\ build_tag c = build_tag c'.
Theorem C93_directories : forall s c c', known_type (build_tag c) -> known_type (build_tag c') ->
  (below (library s c) (library s c') -> same_tags c c') /\ (below (build_dir s c) (build_dir s c') -> same_tags c c') /\
  (forall cuda, ~ below (library s c) (kokkos_cmake_path s cuda) /\ ~ below (lib_prefix s ++ [kokkos_lib_name cuda]) (library s c)).
Proof.
  intros s c c' T T'. split; [|split].
  - unfold library, legion_library_path. intros [r E]. rewrite <- app_assoc in E. apply app_inv_head in E. cbn [app] in E. injection E as E _. rewrite !library_joined in E by assumption.
    apply append_inj_l in E. apply join_inj in E; auto. destruct E as (E1 & E2 & E3 & E4). repeat split; congruence.
  - unfold build_dir, legion_solvers_build_path. intros [r E]. rewrite <- app_assoc in E. apply app_inv_head in E. cbn [app] in E. injection E as E _.
    apply join_inj in E; auto. destruct E as (E1 & E2 & E3 & E4). repeat split; congruence.
  - intros cuda. unfold library, legion_library_path, kokkos_cmake_path. split; intros [r E]; rewrite <- app_assoc in E; apply app_inv_head in E; cbn [app] in E; injection E as E _;
      rewrite library_joined in E by assumption; destruct cuda; discriminate E.
Qed.

(** the lists are those that test_all.py imports *)
Lemma same_lists : TestAll.legion_branches = map (fun '(a, b, c) => [a; b; c]) legion_branches /\ TestAll.build_types = map (fun '(a, b) => [a; b]) build_types.
Proof. split; reflexivity. Qed.
(** ** refresh_cmake.py and make_all.py *)
Lemma configs_known c : In c all_configs -> known_type (build_tag c).
Proof. unfold all_configs, configs_of. cbn. unfold known_type. intros H. repeat (destruct H as [<-|H]; [cbn; auto|]). destruct H. Qed.
Lemma loops_flat (f : config -> script unit) st :
  for_each legion_branches (fun '(tag, _, _) => for_each build_types (fun '(btag, btype) => for_each [false; true] (fun c => for_each [false; true] (fun k => f (mk_config tag c k btag btype))))) st =
  for_each all_configs f st.
Proof.
  transitivity (for_each (flat_map (fun b => flat_map (fun t => flat_map (fun c => map (fun k => mk_config (fst (fst b)) c k (fst t) (snd t)) [false; true]) [false; true]) build_types) legion_branches) f st); [|reflexivity].
  rewrite <- for_each_flat. apply for_each_ext. intros [[tag n] co] st1 _. rewrite <- for_each_flat. apply for_each_ext. intros [bt bty] st2 _. rewrite <- for_each_flat. apply for_each_ext.
  intros c st3 _. apply for_each_map.
Qed.
Lemma NoDup_configs : NoDup all_configs.
Proof. unfold all_configs, configs_of. cbn. repeat constructor; cbn; intuition discriminate. Qed.
Lemma config_ext c c' : In c all_configs -> In c' all_configs -> same_tags c c' -> c = c'.
Proof.
  assert (B : forall c, In c all_configs -> build_type c = if String.eqb (build_tag c) "debug" then "Debug" else "RelWithDebInfo").
  { unfold all_configs, configs_of. cbn. intros x H. repeat (destruct H as [<-|H]; [reflexivity|]). destruct H. }
  intros H H' (E1 & E2 & E3 & E4). apply B in H. apply B in H'. destruct c, c'; cbn in *. subst. reflexivity.
Qed.
Lemma not_below_library s c : ~ below (all_builds s) (lib_prefix s) -> known_type (build_tag c) -> forall c', ~ below (build_dir s c') (library s c).
Proof.
  intros H T c' [r E]. unfold library, legion_library_path, build_dir, legion_solvers_build_path in E. rewrite <- app_assoc in E. apply H. unfold all_builds.
  destruct (@exists_last _ (underscore_join [branch_tag c'; cuda_tag (use_cuda c'); kokkos_tag (use_kokkos c'); build_tag c'] :: r)) as (l & x & L); [discriminate|].
  cbn [app] in E. rewrite L in E. change ("LegionSolversBuild" :: l ++ [x]) with (("LegionSolversBuild" :: l) ++ [x]) in E. rewrite app_assoc in E. apply app_inj_tail in E. destruct E as [-> _].
  exists l. now rewrite <- app_assoc.
Qed.
Lemma J_eq F R plan (m m' : script unit) st : m st = m' st -> J F R plan m' st -> J F R plan m st.
Proof. unfold J. intros ->. auto. Qed.
Section Refresh.
Variables (env : effect_of_commands) (s : settings).
Hypothesis good : well_behaved env.
Let chosen (st : computer) (l : list config) : list config := filter (fun c => is_dir (files st (library s c))) l.
Lemma build_not_above c c' : known_type (build_tag c) -> known_type (build_tag c') -> In c all_configs -> In c' all_configs -> below (build_dir s c) (build_dir s c') -> c = c'.
Proof. intros T T' H H' B. apply config_ext; auto. apply (proj1 (proj2 (@C93_directories s c c' T T'))), B. Qed.
Lemma removelast_build c : removelast (build_dir s c) = all_builds s.
Proof.
  unfold build_dir, legion_solvers_build_path, all_builds. change ["LegionSolversBuild"; underscore_join [branch_tag c; cuda_tag (use_cuda c); kokkos_tag (use_kokkos c); build_tag c]]
    with (["LegionSolversBuild"] ++ [underscore_join [branch_tag c; cuda_tag (use_cuda c); kokkos_tag (use_kokkos c); build_tag c]]). rewrite app_assoc. apply removelast_last.
Qed.
Lemma build_below_all c p : below (build_dir s c) p -> inside (all_builds s) p.
Proof.
  unfold build_dir, legion_solvers_build_path, all_builds. intros [r ->]. eexists _, r. rewrite <- !app_assoc. reflexivity.
Qed.
Lemma configure_eq source c : configure [W "cmake"; P source] (refresh_defines s c) = configure_command s source c.
Proof. unfold configure, configure_command, refresh_defines. destruct (use_kokkos c), (use_cuda c); reflexivity. Qed.
Lemma refresh_step c st : In c all_configs -> files st (cwd st) = Dir -> ~ below (all_builds s) (cwd st) ->
  J (fun p => files st (library s c) = Dir /\ below (build_dir s c) p) (files st (library s c) = Dir /\ (files st (build_dir s c) = File \/ files st (all_builds s) <> Dir))
    (if is_dir (files st (library s c)) then [(build_dir s c, configure_command s (cwd st) c)] else []) (refresh_one env s c) st.
Proof.
  intros Hc Hd Hw. unfold refresh_one. apply J_query. fold (library s c). fold (build_dir s c). destruct (is_dir (files st (library s c))) eqn:E; [|apply J_ret]. apply is_dir_true in E.
  apply (@J_bind _ _ []); [apply J_remove; auto|]. intros st1 E1 C1 F1. destruct (removed_gone _ _ E1) as [G1 G2].
  assert (W1 : ~ below (build_dir s c) (cwd st)) by (intros H; apply build_below_all in H; apply Hw; apply inside_below, H).
  assert (D1 : files st1 (cwd st1) = Dir) by (rewrite C1, G2 by exact W1; exact Hd).
  apply J_getcwd; [exact D1|]. rewrite C1. rewrite <- configure_eq.
  apply (@J_cmake env good _ _ (cpu_count s) (build_dir s c) (refresh_defines s c) false false false "cmake" [P (cwd st)] st1); try discriminate.
  - exact D1.
  - rewrite C1. intros [_ H]. auto.
  - rewrite G1. congruence.
  - intros H. split; [exact E|]. right. rewrite removelast_build in H. rewrite G2 in H; [exact H|]. intros K. apply build_below_all in K. apply (inside_irrefl K).
  - auto.
Qed.
Lemma refresh_list : forall l st, NoDup l -> (forall c, In c l -> In c all_configs) -> files st (cwd st) = Dir -> ~ below (all_builds s) (cwd st) -> ~ below (all_builds s) (lib_prefix s) ->
  J (fun p => exists c, In c (chosen st l) /\ below (build_dir s c) p) (exists c, In c (chosen st l) /\ (files st (build_dir s c) = File \/ files st (all_builds s) <> Dir))
    (map (fun c => (build_dir s c, configure_command s (cwd st) c)) (chosen st l)) (for_each l (refresh_one env s)) st.
Proof.
  induction l as [|c l IH]; intros st ND Hl Hd Hw Hp; [apply J_ret|]. inversion ND as [|? ? Nc ND']; subst. pose proof (Hl c (or_introl eq_refl)) as Hc.
  assert (P1 : map (fun c0 => (build_dir s c0, configure_command s (cwd st) c0)) (chosen st (c :: l)) =
    (if is_dir (files st (library s c)) then [(build_dir s c, configure_command s (cwd st) c)] else []) ++ map (fun c0 => (build_dir s c0, configure_command s (cwd st) c0)) (chosen st l)).
  { unfold chosen. cbn [filter]. destruct (is_dir (files st (library s c))); reflexivity. }
  rewrite P1. cbn [for_each]. clear P1. apply J_bind.
  - eapply J_weaken; [apply refresh_step; assumption| |].
    + intros p [E B]. exists c. split; [|exact B]. unfold chosen. apply filter_In. split; [left; reflexivity|]. rewrite E. reflexivity.
    + intros [E B]. exists c. split; [|exact B]. unfold chosen. apply filter_In. split; [left; reflexivity|]. rewrite E. reflexivity.
  - intros st1 E1 C1 _. pose proof (@refresh_step c st Hc Hd Hw) as K. unfold J in K. rewrite E1 in K. destruct K as (_ & K & _).
    assert (Same : forall p, ~ below (build_dir s c) p -> files st1 p = files st p).
    { intros p N. destruct (node_dec (files st1 p) (files st p)) as [|L]; [assumption|]. destruct (K _ L) as [_ B]. contradiction. }
    assert (Ch : chosen st1 l = chosen st l).
    { unfold chosen. clear -Same Hp Hl. assert (Hl' : forall c0, In c0 l -> In c0 all_configs) by (intros; apply Hl; right; assumption). clear Hl. induction l as [|c' l IH]; [reflexivity|]. cbn [filter].
      rewrite Same by (apply not_below_library; [exact Hp|apply configs_known, Hl'; left; reflexivity]). rewrite IH by (intros; apply Hl'; right; assumption). reflexivity. }
    assert (W1 : ~ below (build_dir s c) (cwd st)) by (intros H; apply build_below_all in H; apply Hw; apply inside_below, H).
    rewrite <- C1, <- Ch. eapply J_weaken; [apply IH| |].
    + exact ND'.
    + intros; apply Hl; right; assumption.
    + rewrite C1, Same by exact W1. exact Hd.
    + rewrite C1. exact Hw.
    + exact Hp.
    + intros p (c' & I & B). exists c'. split; [|exact B]. rewrite Ch in I. unfold chosen in *. cbn [filter]. destruct (is_dir (files st (library s c))); [right|]; exact I.
    + intros (c' & I & B). rewrite Ch in I. exists c'. unfold chosen in I. apply filter_In in I. destruct I as [I D]. split; [unfold chosen; apply filter_In; split; [right; exact I|exact D]|].
      rewrite !Same in B; [exact B| |].
      * intros H. apply build_below_all in H. apply (inside_irrefl H).
      * intros H. apply build_not_above in H; [subst; contradiction| | | |]; try apply configs_known; try exact Hc; apply Hl; right; exact I.
Qed.
Lemma refresh_leaves c st st' : In c all_configs -> files st (cwd st) = Dir -> ~ below (all_builds s) (cwd st) -> files st (library s c) = Dir ->
  refresh_one env s c st = (st', Some tt) -> files st' (build_dir s c) = Dir.
Proof.
  intros Hc Hd Hw Hl. unfold refresh_one, bind at 1, query. fold (library s c). fold (build_dir s c). rewrite Hl. cbn [is_dir]. unfold bind at 1.
  destruct (remove_directory (build_dir s c) st) as [st1 [[]|]] eqn:E1; [|discriminate]. destruct (removed_gone _ _ E1) as [G1 G2].
  assert (C1 : cwd st1 = cwd st). { assert (J1 := @J_remove (fun _ => True) True (build_dir s c) st (fun _ => I) (fun _ _ => I)). unfold J in J1. rewrite E1 in J1. apply J1. }
  assert (W1 : ~ below (build_dir s c) (cwd st)) by (intros H; apply build_below_all in H; apply Hw; apply inside_below, H).
  unfold bind at 1, getcwd. rewrite C1, G2 by exact W1. rewrite Hd. cbn [is_dir]. eapply cmake_leaves_dir; try discriminate; [exact good|rewrite C1, G2 by exact W1; exact Hd|].
  rewrite C1. intros H. apply W1. apply inside_below, H.
Qed.
Lemma refresh_list_leaves : forall l st st', NoDup l -> (forall c, In c l -> In c all_configs) -> files st (cwd st) = Dir -> ~ below (all_builds s) (cwd st) -> ~ below (all_builds s) (lib_prefix s) ->
  for_each l (refresh_one env s) st = (st', Some tt) -> forall c, In c (chosen st l) -> files st' (build_dir s c) = Dir.
Proof.
  induction l as [|c l IH]; intros st st' ND Hl Hd Hw Hp E c' I; [destruct I|]. inversion ND as [|? ? Nc ND']; subst. pose proof (Hl c (or_introl eq_refl)) as Hc.
  assert (Hl' : forall c0, In c0 l -> In c0 all_configs) by (intros; apply Hl; right; assumption).
  cbn [for_each] in E. unfold bind in E. destruct (refresh_one env s c st) as [st1 [[]|]] eqn:E1; [|discriminate].
  pose proof (@refresh_step c st Hc Hd Hw) as K. unfold J in K. rewrite E1 in K. destruct K as (C1 & K & _).
  assert (Same : forall p, ~ below (build_dir s c) p -> files st1 p = files st p).
  { intros p N. destruct (node_dec (files st1 p) (files st p)) as [|L]; [assumption|]. destruct (K _ L) as [_ B]. contradiction. }
  assert (W1 : ~ below (build_dir s c) (cwd st)) by (intros H; apply build_below_all in H; apply Hw; apply inside_below, H).
  assert (Hd1 : files st1 (cwd st1) = Dir) by (rewrite C1, Same by exact W1; exact Hd). assert (Hw1 : ~ below (all_builds s) (cwd st1)) by (rewrite C1; exact Hw).
  unfold chosen in I. apply filter_In in I. destruct I as [[<-|I] D].
  - apply is_dir_true in D. assert (B1 := @refresh_leaves c st st1 Hc Hd Hw D E1).
    assert (Q := @refresh_list l st1 ND' Hl' Hd1 Hw1 Hp). unfold J in Q. rewrite E in Q. destruct Q as (_ & Q & _). destruct (node_dec (files st' (build_dir s c)) (files st1 (build_dir s c))) as [|L]; [congruence|].
    destruct (Q _ L) as (c' & I & B). unfold chosen in I. apply filter_In in I. destruct I as [I _]. apply build_not_above in B; [subst; contradiction| | | |]; try apply configs_known; auto.
  - apply (IH st1 st' ND' Hl' Hd1 Hw1 Hp E). unfold chosen. apply filter_In. split; [exact I|]. rewrite Same by (apply not_below_library; [exact Hp|apply configs_known, Hl', I]). exact D.
Qed.
End Refresh.
(** refresh_cmake.py.  Started in a directory outside SCRATCH_DIR/LegionSolversBuild, it comes back to that directory whatever happens; it changes nothing except below
    the build directories of the configurations whose Legion library directory exists; it runs exactly one command for each of those, in order: cmake in the fresh build
    directory, on the directory it was started in, with the Legion library of this configuration and the Kokkos library with or without CUDA if it uses Kokkos; it stops
    early only if a command fails or a build directory cannot be created; otherwise all these build directories exist afterwards. *)
Theorem C93_refresh : forall env s st, well_behaved env -> files st (cwd st) = Dir -> ~ below (all_builds s) (cwd st) -> ~ below (all_builds s) (lib_prefix s) ->
  let chosen := filter (fun c => is_dir (files st (library s c))) all_configs in
  let '(st', r) := refresh_cmake env s st in
  cwd st' = cwd st /\ (forall p, files st' p <> files st p -> exists c, In c chosen /\ below (build_dir s c) p) /\
  exists new todo, past st' = past st ++ new /\ map (fun c => (build_dir s c, configure_command s (cwd st) c)) chosen = commands new ++ todo /\
    match r with
    | Some _ => todo = [] /\ Forall passed new /\ forall c, In c chosen -> files st' (build_dir s c) = Dir
    | None => stopped_by_command new \/ (Forall passed new /\ exists c, In c chosen /\ (files st (build_dir s c) = File \/ files st (all_builds s) <> Dir))
    end.
Proof.
  intros env s st good Hd Hw Hp chosen. assert (K := @refresh_list env s good all_configs st NoDup_configs (fun c H => H) Hd Hw Hp). assert (L := @refresh_list_leaves env s good all_configs st).
  unfold J in K. unfold refresh_cmake. rewrite loops_flat. destruct (for_each all_configs (refresh_one env s) st) as [st' r]. destruct K as (K1 & K2 & todo & new & K3 & K4 & K5).
  split; [exact K1|]. split; [exact K2|]. exists new, todo. split; [exact K4|]. split; [exact K3|]. destruct r as [[]|]; [|exact K5]. destruct K5 as [K5 K6]. split; [exact K5|]. split; [exact K6|].
  apply (L st'); auto using NoDup_configs.
Qed.
(** The directory SCRATCH_DIR/LegionSolversBuild is never created: if it does not exist and some Legion library does, refresh_cmake.py raises an exception before it has
    changed or run anything. *)
Theorem C93_build_directory_is_needed : forall env s st, files st (all_builds s) = Nothing -> (forall p, inside (all_builds s) p -> files st p = Nothing) -> files st (cwd st) = Dir ->
  (exists c, In c all_configs /\ files st (library s c) = Dir) -> refresh_cmake env s st = (st, None).
Proof.
  intros env s st H0 H1 Hd (c & Hc & Hl). unfold refresh_cmake. rewrite loops_flat. clear -H0 H1 Hd Hc Hl. revert Hc. generalize all_configs. intros l. induction l as [|c' l IH]; intros Hc; [destruct Hc|].
  cbn [for_each]. unfold bind at 1. unfold refresh_one at 1, bind at 1, query. fold (library s c'). fold (build_dir s c').
  assert (B : files st (build_dir s c') = Nothing) by (apply H1, build_below_all with (c := c'), below_refl).
  destruct (is_dir (files st (library s c'))) eqn:E.
  - unfold remove_directory, bind, query, getcwd. cbn. rewrite B. cbn. rewrite Hd. cbn. unfold create_directory, cmake, bind, query. unfold create_directory, bind, query, mkdir. rewrite B. cbn.
    rewrite B, removelast_build, H0. reflexivity.
  - cbn. destruct Hc as [->|Hc]; [rewrite Hl in E; discriminate|apply IH, Hc].
Qed.
(** make_all.py builds exactly the configurations whose build directory exists, in order, and stops early only when a build fails; it comes back to the directory it was
    started in and changes only what lies in these build directories. *)
Section Make.
Variables (env : effect_of_commands) (s : settings).
Hypothesis good : well_behaved env.
Definition make_command : list word := [W "cmake"; W "--build"; W "."; W "--parallel"].
Let built (st : computer) (l : list config) : list config := filter (fun c => is_dir (files st (build_dir s c))) l.
Lemma make_step c st : files st (cwd st) = Dir -> ~ below (all_builds s) (cwd st) ->
  J (fun p => files st (build_dir s c) = Dir /\ inside (build_dir s c) p) False (if is_dir (files st (build_dir s c)) then [(build_dir s c, make_command)] else []) (make_one env s c) st.
Proof.
  intros Hd Hw. unfold make_one. apply J_query. fold (build_dir s c). destruct (is_dir (files st (build_dir s c))) eqn:E; [|apply J_ret]. apply is_dir_true in E.
  apply J_change; auto.
  - intros [_ H]. apply Hw. apply inside_below. apply build_below_all with (c := c). apply inside_below, H.
  - intros _. apply (@J_run env good _ _ true _ (at_dir st (build_dir s c))); [left; split; [reflexivity|discriminate]|]. intros p H. split; [exact E|]. eapply writes_inside; [| |exact H]; intros; discriminate.
Qed.
Lemma make_list : forall l st, NoDup l -> (forall c, In c l -> In c all_configs) -> files st (cwd st) = Dir -> ~ below (all_builds s) (cwd st) ->
  J (fun p => exists c, In c (built st l) /\ inside (build_dir s c) p) False (map (fun c => (build_dir s c, make_command)) (built st l)) (for_each l (make_one env s)) st.
Proof.
  induction l as [|c l IH]; intros st ND Hl Hd Hw; [apply J_ret|]. inversion ND as [|? ? Nc ND']; subst. pose proof (Hl c (or_introl eq_refl)) as Hc.
  assert (P1 : map (fun c0 => (build_dir s c0, make_command)) (built st (c :: l)) =
    (if is_dir (files st (build_dir s c)) then [(build_dir s c, make_command)] else []) ++ map (fun c0 => (build_dir s c0, make_command)) (built st l)).
  { unfold built. cbn [filter]. destruct (is_dir (files st (build_dir s c))); reflexivity. }
  rewrite P1. cbn [for_each]. clear P1. apply J_bind.
  - eapply J_weaken; [apply make_step; assumption| |auto].
    intros p [E B]. exists c. split; [|exact B]. unfold built. apply filter_In. split; [left; reflexivity|]. rewrite E. reflexivity.
  - intros st1 E1 C1 _. pose proof (@make_step c st Hd Hw) as K. unfold J in K. rewrite E1 in K. destruct K as (_ & K & _).
    assert (Same : forall p, ~ inside (build_dir s c) p -> files st1 p = files st p).
    { intros p N. destruct (node_dec (files st1 p) (files st p)) as [|L]; [assumption|]. destruct (K _ L) as [_ B]. contradiction. }
    assert (Ch : built st1 l = built st l).
    { unfold built. clear -Same Hl Hc. assert (Hl' : forall c0, In c0 l -> In c0 all_configs) by (intros; apply Hl; right; assumption). clear Hl. induction l as [|c' l IH]; [reflexivity|]. cbn [filter].
      rewrite Same. { rewrite IH by (intros; apply Hl'; right; assumption). reflexivity. }
      intros I. assert (c = c') as <-; [|destruct (inside_irrefl I)].
      pose proof (Hl' c' (or_introl eq_refl)) as Hc'. eapply build_not_above; [apply configs_known, Hc|apply configs_known, Hc'|exact Hc|exact Hc'|apply inside_below, I]. }
    rewrite <- Ch. eapply J_weaken; [apply IH| |auto].
    + exact ND'.
    + intros; apply Hl; right; assumption.
    + rewrite C1, Same; [exact Hd|]. intros I. apply Hw, inside_below, build_below_all with (c := c), inside_below, I.
    + rewrite C1. exact Hw.
    + intros p (c' & I & B). exists c'. split; [|exact B]. rewrite Ch in I. unfold built in *. cbn [filter]. destruct (is_dir (files st (build_dir s c))); [right|]; exact I.
Qed.
End Make.
Theorem C93_make_all : forall env s st, well_behaved env -> files st (cwd st) = Dir -> ~ below (all_builds s) (cwd st) ->
  let built := filter (fun c => is_dir (files st (build_dir s c))) all_configs in
  let '(st', r) := make_all env s st in
  cwd st' = cwd st /\ (forall p, files st' p <> files st p -> exists c, In c built /\ inside (build_dir s c) p) /\
  exists new todo, past st' = past st ++ new /\ map (fun c => (build_dir s c, make_command)) built = commands new ++ todo /\
    match r with Some _ => todo = [] /\ Forall passed new | None => stopped_by_command new end.
Proof.
  intros env s st good Hd Hw built. assert (K := @make_list env s good all_configs st NoDup_configs (fun c H => H) Hd Hw). unfold J in K. unfold make_all. rewrite loops_flat.
  destruct (for_each all_configs (make_one env s) st) as [st' r]. destruct K as (K1 & K2 & todo & new & K3 & K4 & K5). split; [exact K1|]. split; [exact K2|]. exists new, todo. split; [exact K4|]. split; [exact K3|].
  destruct r; [exact K5|]. destruct K5 as [K5|[_ []]]. exact K5.
Qed.
(** After a refresh_cmake.py that ended normally, make_all.py builds every configuration that was refreshed, and also those that have an old build directory but no Legion library. *)
Theorem C93_refresh_then_make : forall env env' s st st1, well_behaved env -> well_behaved env' -> files st (cwd st) = Dir -> ~ below (all_builds s) (cwd st) -> ~ below (all_builds s) (lib_prefix s) ->
  refresh_cmake env s st = (st1, Some tt) ->
  let '(st2, r) := make_all env' s st1 in
  exists new todo, past st2 = past st1 ++ new /\ (r = None -> stopped_by_command new) /\ (r <> None -> todo = []) /\
    map (fun c => (build_dir s c, make_command)) (filter (fun c => is_dir (files st (library s c)) || is_dir (files st (build_dir s c))) all_configs) = commands new ++ todo.
Proof.
  intros env env' s st st1 good good' Hd Hw Hp E. assert (R := @C93_refresh env s st good Hd Hw Hp). cbv zeta in R. rewrite E in R. destruct R as (C1 & F1 & new1 & todo1 & _ & _ & _ & _ & L1).
  assert (Out : forall p, ~ below (all_builds s) p -> files st1 p = files st p).
  { intros p N. destruct (node_dec (files st1 p) (files st p)) as [|L]; [assumption|]. destruct (F1 _ L) as (c & _ & B). destruct N. apply inside_below, build_below_all with (c := c), B. }
  assert (M := @C93_make_all env' s st1 good'). rewrite C1, Out in M by exact Hw. specialize (M Hd Hw). cbv zeta in M. destruct (make_all env' s st1) as [st2 r]. destruct M as (_ & _ & new & todo & M1 & M2 & M3).
  exists new, todo. split; [exact M1|]. split; [intros ->; exact M3|]. split; [intros N; destruct r; [apply M3|congruence]|]. rewrite <- M2. f_equal. apply filter_ext_in. intros c Hc.
  destruct (is_dir (files st (library s c))) eqn:D.
  - rewrite L1; [reflexivity|]. apply filter_In. split; [exact Hc|exact D].
  - cbn [orb]. f_equal. destruct (node_dec (files st1 (build_dir s c)) (files st (build_dir s c))) as [|L]; [congruence|]. destruct (F1 _ L) as (c' & I & B). apply filter_In in I. destruct I as [I D'].
    apply build_not_above in B; [subst; congruence| | | |]; try apply configs_known; auto.
Qed.

(** ** build_legion.py *)
(** the choices of CUDA and Kokkos left by the options: --force-x keeps those with x, --skip-x those without; both together keep none *)
Definition wanted (argv : list string) : list (bool * bool) :=
  let given x := if in_dec string_dec x argv then true else false in
  filter (fun ck => (negb (given "--force-cuda") || fst ck) && (negb (given "--skip-cuda") || negb (fst ck)) && (negb (given "--force-kokkos") || snd ck) && (negb (given "--skip-kokkos") || negb (snd ck))) cuda_kokkos.
Theorem C93_options : forall argv, cuda_kokkos_configs argv = wanted argv.
Proof.
  intros argv. unfold cuda_kokkos_configs, wanted.
  assert (E : forall x, existsb (String.eqb x) argv = if in_dec string_dec x argv then true else false).
  { intros x. destruct (in_dec string_dec x argv) as [H|H]; [apply existsb_exists; exists x; split; [exact H|apply String.eqb_refl]|].
    destruct (existsb (String.eqb x) argv) eqn:E; [|reflexivity]. apply existsb_exists in E. destruct E as (y & Hy & E). apply String.eqb_eq in E. subst. contradiction. }
  rewrite !E. repeat destruct (in_dec _ _ _); reflexivity.
Qed.
Definition clone_dir (s : settings) (tag : string) : path := scratch_dir s ++ [legion_dir tag].
(** the commands for one branch (its tag, its name and a commit) and for one configuration *)
Definition clone_plan (s : settings) (b : string * string * string) : list (path * list word) :=
  let '(tag, name, commit) := b in
  [(scratch_dir s, [W "git"; W "clone"; W "--branch"; W name; W "https://gitlab.com/StanfordLegion/legion.git"; W (legion_dir tag)]);
   (clone_dir s tag, [W "git"; W "checkout"; W commit])].
Definition config_plan (s : settings) (c : config) : list (path * list word) :=
  let d := clone_dir s (branch_tag c) ++ [legion_build_dir c] in
  [(d, configure [W "cmake"; W ".."] (legion_defines s c));
   (d, [W "cmake"; W "--build"; W "."; W "--parallel"; N (match cpu_count s with Some n => n | None => 8%Z end)]); (d, [W "make"; W "install"])].
Definition branch_plan (s : settings) (argv : list string) (b : string * string * string) : list (path * list word) :=
  clone_plan s b ++ flat_map (config_plan s) (configs_of (wanted argv) (fst (fst b))).
Lemma J_split (F1 F2 : path -> Prop) R p1 p2 m (k : unit -> script unit) st p : J F1 R p1 m st -> (forall st1, m st = (st1, Some tt) -> J F2 R p2 (k tt) st1) ->
  files (fst (bind m k st)) p <> files st p -> ~ F1 p ->
  exists st1 new1, m st = (st1, Some tt) /\ bind m k st = k tt st1 /\ files st1 p = files st p /\ past st1 = past st ++ new1 /\ commands new1 = p1.
Proof.
  unfold J, bind. destruct (m st) as [st1 [[]|]].
  - intros (H1 & H2 & todo & new & H3 & H4 & H5 & H6) HK Hp N. subst todo. rewrite app_nil_r in H3. exists st1, new. split; [reflexivity|]. split; [reflexivity|].
    split; [destruct (node_dec (files st1 p) (files st p)) as [|L]; [assumption|destruct (N (H2 _ L))]|]. auto.
  - intros (H1 & H2 & _) _ Hp N. destruct (N (H2 _ Hp)).
Qed.
Section Legion.
Variables (env : effect_of_commands) (s : settings).
Hypothesis good : well_behaved env.
Hypothesis apart : ~ inside (lib_prefix s) (scratch_dir s).
Definition known_tag (tag : string) : Prop := exists name commit, In (tag, name, commit) legion_branches.
Lemma library_not_above_scratch c : ~ below (library s c) (scratch_dir s).
Proof. intros H. apply apart. apply below_inside in H. exact H. Qed.
Lemma tag_names tag c : known_tag tag -> known_type (build_tag c) -> (branch_tag c = "master" \/ branch_tag c = "r2412") ->
  legion_dir tag <> underscore_join ["legion"; branch_tag c; cuda_tag (use_cuda c); kokkos_tag (use_kokkos c); build_tag c].
Proof.
  intros (n & co & [H|[H|[]]]) T Hb; injection H as <- _ _; destruct Hb as [-> | ->], T as [-> | ->]; destruct (use_cuda c), (use_kokkos c); discriminate.
Qed.
Lemma library_not_above_clone tag c : known_tag tag -> known_type (build_tag c) -> (branch_tag c = "master" \/ branch_tag c = "r2412") -> ~ below (library s c) (clone_dir s tag).
Proof.
  intros T K B [r E]. unfold library, legion_library_path, clone_dir in E. rewrite <- app_assoc in E. cbn [app] in E. destruct r as [|x r].
  - apply app_inj_tail in E. destruct E as [_ E]. revert E. apply tag_names; assumption.
  - destruct (@exists_last _ (x :: r)) as (l & y & L); [discriminate|]. rewrite L in E.
    change (underscore_join ["legion"; branch_tag c; cuda_tag (use_cuda c); kokkos_tag (use_kokkos c); build_tag c] :: l ++ [y])
      with ((underscore_join ["legion"; branch_tag c; cuda_tag (use_cuda c); kokkos_tag (use_kokkos c); build_tag c] :: l) ++ [y]) in E.
    rewrite app_assoc in E. apply app_inj_tail in E. destruct E as [E _]. apply apart. rewrite E. eexists _, l. reflexivity.
Qed.
Lemma wanted_configs argv tag c : In c (configs_of (wanted argv) tag) -> branch_tag c = tag /\ known_type (build_tag c).
Proof.
  unfold configs_of. intros H. apply in_flat_map in H. destruct H as (t & Ht & H). apply in_map_iff in H. destruct H as (ck & <- & _). cbn. split; [reflexivity|]. unfold known_type. destruct Ht as [<-|[<-|[]]]; cbn; auto.
Qed.
Lemma known_master tag : known_tag tag -> tag = "master" \/ tag = "r2412".
Proof. intros (n & co & [H|[H|[]]]); injection H as <- _ _; auto. Qed.
Lemma scratch_not_clone tag : ~ below (clone_dir s tag) (scratch_dir s).
Proof. intros H. apply below_inside in H. apply (inside_irrefl H). Qed.
Lemma J_clone tag name commit st : files st (cwd st) = Dir -> cwd st = scratch_dir s ->
  J (below (clone_dir s tag)) True (clone_plan s (tag, name, commit)) (clone_legion env s tag name commit) st.
Proof.
  intros Hd Hc. unfold clone_legion, clone_plan. apply (@J_bind _ _ []); [apply J_remove; auto|]. intros st1 _ C1 F1. unfold clone. rewrite Hc in C1.
  assert (Same : files st1 (scratch_dir s) = Dir).
  { destruct (node_dec (files st1 (scratch_dir s)) (files st (scratch_dir s))) as [H|H]; [rewrite <- Hc in *; congruence|]. exfalso; eapply scratch_not_clone, (F1 _ H). }
  apply (@J_bind _ _ [(scratch_dir s, _)]).
  - rewrite <- C1. apply J_run; [exact good|left; split; [reflexivity|discriminate]|]. intros p [(b & u & dir & E & B)|[[H _]|[H _]]]; [injection E as _ _ E3; rewrite C1, <- E3 in B; exact B|edestruct H; reflexivity|discriminate].
  - intros st2 _ C2 F2.
    assert (Same2 : files st2 (scratch_dir s) = Dir).
    { destruct (node_dec (files st2 (scratch_dir s)) (files st1 (scratch_dir s))) as [H|H]; [congruence|]. exfalso; eapply scratch_not_clone, (F2 _ H). }
    apply J_getcwd; [rewrite C2, C1; exact Same2|]. rewrite C2, C1. fold (clone_dir s tag). apply J_change; [rewrite C2, C1; exact Same2|auto|rewrite C2, C1; apply scratch_not_clone|]. intros _.
    apply (@J_run env good _ _ true _ (at_dir st2 (clone_dir s tag))); [left; split; [reflexivity|discriminate]|]. intros p H. apply inside_below. eapply writes_inside; [| |exact H]; intros; discriminate.
Qed.
Lemma prefix_defined c : prefix_in (configure [W "cmake"; W ".."] (legion_defines s c)) = Some (library s c).
Proof. unfold legion_defines. destruct (no_rdtsc (the_machine s)), (use_kokkos c), (use_cuda c); reflexivity. Qed.
Lemma J_config tag c st : known_tag tag -> branch_tag c = tag -> known_type (build_tag c) -> cwd st = clone_dir s tag -> files st (cwd st) = Dir ->
  J (fun p => inside (clone_dir s tag) p \/ below (library s c) p) True (config_plan s c) (cmake_legion env s c) st.
Proof.
  intros T B K C Hd. unfold cmake_legion. apply (@J_bind _ _ []); [apply J_remove; auto|]. intros st1 E1 C1 F1. rewrite C in C1.
  assert (NL : ~ below (library s c) (clone_dir s tag)) by (apply library_not_above_clone; auto; rewrite B; apply known_master, T).
  destruct (removed_gone _ _ E1) as [_ G].
  assert (D1 : files st1 (cwd st1) = Dir) by (rewrite C1, G by exact NL; rewrite <- C; exact Hd).
  apply J_getcwd; [exact D1|]. rewrite C1. unfold config_plan. rewrite B.
  apply (@J_cmake env good _ True (cpu_count s) (clone_dir s tag ++ [legion_build_dir c]) (legion_defines s c) true false true "cmake" [W ".."] st1); try discriminate; auto.
  - rewrite C1. intros [H|H]; [apply (inside_irrefl H)|auto].
  - intros p H. left. eapply below_inside, H.
  - intros _. exists (library s c). split; [apply prefix_defined|auto].
Qed.
Lemma J_configs tag : known_tag tag -> forall l st, (forall c, In c l -> branch_tag c = tag /\ known_type (build_tag c)) -> cwd st = clone_dir s tag -> files st (cwd st) = Dir ->
  J (fun p => inside (clone_dir s tag) p \/ exists c, In c l /\ below (library s c) p) True (flat_map (config_plan s) l) (for_each l (cmake_legion env s)) st.
Proof.
  intros T. induction l as [|c l IH]; intros st Hl C Hd; [apply J_ret|]. cbn [flat_map for_each]. destruct (Hl c (or_introl eq_refl)) as [B K]. apply J_bind.
  - eapply J_weaken; [apply J_config with (tag := tag); assumption| |auto]. intros p [H|H]; [left; exact H|right; exists c; split; [left; reflexivity|exact H]].
  - intros st1 E1 C1 _. pose proof (@J_config tag c st T B K C Hd) as Q. unfold J in Q. rewrite E1 in Q. destruct Q as (_ & Q & _).
    assert (D1 : files st1 (cwd st1) = Dir).
    { rewrite C1. destruct (node_dec (files st1 (cwd st)) (files st (cwd st))) as [H|H]; [congruence|]. destruct (Q _ H) as [I|I]; rewrite C in I; [destruct (inside_irrefl I)|].
      exfalso. revert I. apply library_not_above_clone; auto. rewrite B. apply known_master, T. }
    eapply J_weaken; [apply IH; [intros; apply Hl; right; assumption|congruence|exact D1]| |auto].
    intros p [H|(c' & I & H)]; [left; exact H|right; exists c'; split; [right; exact I|exact H]].
Qed.
Definition branch_script (argv : list string) (b : string * string * string) : script unit :=
  let '(tag, name, commit) := b in clone_legion env s tag name commit ;; change_directory (clone_dir s tag) (for_each (configs_of (wanted argv) tag) (cmake_legion env s)).
Definition branch_area (argv : list string) (b : string * string * string) (p : path) : Prop :=
  below (clone_dir s (fst (fst b))) p \/ exists c, In c (configs_of (wanted argv) (fst (fst b))) /\ below (library s c) p.
Lemma scratch_not_area argv b : ~ branch_area argv b (scratch_dir s).
Proof. intros [H|(c & _ & H)]; [eapply scratch_not_clone, H|eapply library_not_above_scratch, H]. Qed.
Lemma J_inner argv b st : In b legion_branches -> cwd st = scratch_dir s -> files st (cwd st) = Dir ->
  J (branch_area argv b) True (flat_map (config_plan s) (configs_of (wanted argv) (fst (fst b)))) (change_directory (clone_dir s (fst (fst b))) (for_each (configs_of (wanted argv) (fst (fst b))) (cmake_legion env s))) st.
Proof.
  intros Hb C Hd. destruct b as [[tag name] commit]. cbn [fst]. assert (T : known_tag tag) by (exists name, commit; exact Hb).
  apply J_change; [exact Hd|auto|rewrite C; apply scratch_not_area|]. intros D.
  eapply J_weaken; [apply J_configs with (tag := tag); [exact T|intros c H; eapply wanted_configs, H|reflexivity|exact D]| |auto].
  intros p [H|H]; [left; apply inside_below, H|right; exact H].
Qed.
Lemma J_branch argv b st : In b legion_branches -> cwd st = scratch_dir s -> files st (cwd st) = Dir ->
  J (branch_area argv b) True (branch_plan s argv b) (branch_script argv b) st.
Proof.
  intros Hb C Hd. destruct b as [[tag name] commit]. unfold branch_script, branch_plan. cbn [fst]. apply J_bind.
  - eapply J_weaken; [apply J_clone; assumption|intros p H; left; exact H|auto].
  - intros st1 _ C1 F1. apply (@J_inner argv (tag, name, commit) st1 Hb); [congruence|].
    rewrite C1. destruct (node_dec (files st1 (cwd st)) (files st (cwd st))) as [H|H]; [congruence|]. exfalso. specialize (F1 _ H). rewrite C in F1. eapply scratch_not_area, F1.
Qed.
Lemma J_branches argv : forall l st, (forall b, In b l -> In b legion_branches) -> cwd st = scratch_dir s -> files st (cwd st) = Dir ->
  J (fun p => exists b, In b l /\ branch_area argv b p) True (flat_map (branch_plan s argv) l) (for_each l (branch_script argv)) st.
Proof.
  induction l as [|b l IH]; intros st Hl C Hd; [apply J_ret|]. cbn [flat_map for_each]. apply J_bind.
  - eapply J_weaken; [apply J_branch; auto; apply Hl; left; reflexivity|intros p H; exists b; split; [left; reflexivity|exact H]|auto].
  - intros st1 _ C1 F1. eapply J_weaken; [apply IH; [intros; apply Hl; right; assumption|congruence|]| |auto].
    + rewrite C1. destruct (node_dec (files st1 (cwd st)) (files st (cwd st))) as [H|H]; [congruence|]. exfalso. destruct (F1 _ H) as (b' & _ & A). rewrite C in A. eapply scratch_not_area, A.
    + intros p (b' & I & A). exists b'. split; [right; exact I|exact A].
Qed.
Lemma clone_not_above_library tag c : ~ below (clone_dir s tag) (lib_prefix s) -> known_tag tag -> known_type (build_tag c) -> (branch_tag c = "master" \/ branch_tag c = "r2412") -> ~ below (clone_dir s tag) (library s c).
Proof.
  intros H T K B [r E]. unfold library, legion_library_path in E. destruct r as [|x r].
  - rewrite app_nil_r in E. unfold clone_dir in E. apply app_inj_tail in E. destruct E as [_ E]. symmetry in E. revert E. apply tag_names; assumption.
  - destruct (@exists_last _ (x :: r)) as (l & y & L); [discriminate|]. rewrite L, app_assoc in E. apply app_inj_tail in E. destruct E as [E _]. apply H. exists l. exact E.
Qed.
Lemma clone_library_disjoint tag c p : ~ below (clone_dir s tag) (lib_prefix s) -> known_tag tag -> known_type (build_tag c) -> (branch_tag c = "master" \/ branch_tag c = "r2412") ->
  below (clone_dir s tag) p -> below (library s c) p -> False.
Proof.
  intros H T K B [r E] [r' E']. rewrite E in E'. clear E p.
  assert (X : forall (a b r r' : path), a ++ r = b ++ r' -> below a b \/ below b a).
  { induction a as [|x a IH]; intros b q q' Q; [left; exists b; reflexivity|]. destruct b as [|y b]; [right; exists (x :: a); reflexivity|]. cbn in Q. injection Q as -> Q.
    destruct (IH _ _ _ Q) as [[z Z]|[z Z]]; [left|right]; exists z; cbn; rewrite Z; reflexivity. }
  destruct (X _ _ _ _ E') as [Q|Q]; [exact (@clone_not_above_library tag c H T K B Q)|exact (@library_not_above_clone tag c T K B Q)].
Qed.
Lemma libraries_disjoint c c' p : known_type (build_tag c) -> known_type (build_tag c') -> below (library s c) p -> below (library s c') p -> same_tags c c'.
Proof.
  intros K K' [r E] [r' E']. rewrite E in E'. unfold library, legion_library_path in E'. rewrite <- !app_assoc in E'. apply app_inv_head in E'. cbn [app] in E'. injection E' as E' _.
  apply (proj1 (@C93_directories s c c' K K')). unfold library, legion_library_path. rewrite E'. apply below_refl.
Qed.
Lemma split_configs tag before c after l : configs_of l tag = before ++ c :: after -> NoDup l -> forall c', In c' before -> ~ same_tags c' c.
Proof.
  intros E ND c' I S.
  assert (NDc : NoDup (configs_of l tag)).
  { unfold configs_of. cbn [flat_map]. rewrite app_nil_r. assert (M : forall t u, NoDup (map (fun ck : bool * bool => mk_config tag (fst ck) (snd ck) t u) l)).
    { intros t u. apply FinFun.Injective_map_NoDup; [|exact ND]. intros [a b] [a' b'] Q. cbn in Q. injection Q as -> ->. reflexivity. }
    apply NoDup_app_intro; [apply M|apply M|]. intros x H1 H2. apply in_map_iff in H1. apply in_map_iff in H2. destruct H1 as (? & <- & _). destruct H2 as (? & Q & _). cbn in Q. discriminate. }
  assert (T : forall x, In x (configs_of l tag) -> branch_tag x = tag /\ build_type x = if String.eqb (build_tag x) "debug" then "Debug" else "RelWithDebInfo").
  { intros x H. unfold configs_of in H. apply in_flat_map in H. destruct H as (t & Ht & H). apply in_map_iff in H. destruct H as (ck & <- & _). cbn. split; [reflexivity|]. destruct Ht as [<-|[<-|[]]]; reflexivity. }
  assert (Ic : In c (configs_of l tag)) by (rewrite E; apply in_or_app; right; left; reflexivity).
  assert (Ic' : In c' (configs_of l tag)) by (rewrite E; apply in_or_app; left; exact I).
  destruct (T _ Ic) as [_ Bc]. destruct (T _ Ic') as [_ Bc']. destruct S as (S1 & S2 & S3 & S4).
  assert (c' = c) by (destruct c, c'; cbn in *; subst; reflexivity). subst c'. rewrite E in NDc. apply NoDup_remove_2 in NDc. apply NDc. apply in_or_app. left. exact I.
Qed.
Lemma NoDup_wanted argv : NoDup (wanted argv).
Proof. unfold wanted. apply NoDup_filter. unfold cuda_kokkos. repeat constructor; cbn; intuition discriminate. Qed.
(** within one branch *)
Lemma branch_order argv b before c after st p : In b legion_branches -> cwd st = scratch_dir s -> files st (cwd st) = Dir -> ~ below (clone_dir s (fst (fst b))) (lib_prefix s) ->
  configs_of (wanted argv) (fst (fst b)) = before ++ c :: after -> below (library s c) p -> files (fst (branch_script argv b st)) p <> files st p ->
  exists new more, past (fst (branch_script argv b st)) = past st ++ new /\ commands new = clone_plan s b ++ flat_map (config_plan s) before ++ more.
Proof.
  intros Hb C Hd Hlp Hs Hp Hf. destruct b as [[tag name] commit]. cbn [fst] in *. assert (T : known_tag tag) by (exists name, commit; exact Hb).
  assert (Wc : forall c', In c' (before ++ c :: after) -> branch_tag c' = tag /\ known_type (build_tag c')) by (rewrite <- Hs; intros; eapply wanted_configs; eassumption).
  destruct (Wc c) as [Bc Kc]; [apply in_or_app; right; left; reflexivity|]. assert (MT := known_master T). rewrite <- Bc in MT.
  unfold branch_script in *. edestruct J_split as (st1 & new1 & E1 & Q1 & P1 & A1 & L1); [apply (@J_clone tag name commit st Hd C)| |exact Hf| |].
  { intros st1 E1. pose proof (@J_clone tag name commit st Hd C) as K. unfold J in K. rewrite E1 in K. destruct K as (C1 & F1 & _). apply (@J_inner argv (tag, name, commit) st1 Hb); [congruence|].
    rewrite C1, C. destruct (node_dec (files st1 (scratch_dir s)) (files st (scratch_dir s))) as [H|H]; [rewrite <- C in *; congruence|]. exfalso; eapply scratch_not_clone, (F1 _ H). }
  { intros H. eapply clone_library_disjoint; [exact Hlp|exact T|exact Kc|exact MT|exact H|exact Hp]. }
  rewrite Q1 in *. pose proof (@J_clone tag name commit st Hd C) as K. unfold J in K. rewrite E1 in K. destruct K as (C1 & F1 & _). rewrite C in C1.
  assert (D1 : files st1 (scratch_dir s) = Dir).
  { destruct (node_dec (files st1 (scratch_dir s)) (files st (scratch_dir s))) as [H|H]; [rewrite <- C in *; congruence|]. exfalso; eapply scratch_not_clone, (F1 _ H). }
  unfold change_directory, bind, getcwd in *. rewrite C1, D1 in *. cbn [is_dir] in *. unfold chdir at 1 in Hf. unfold chdir at 1. destruct (is_dir (files st1 (clone_dir s tag))) eqn:Dc; [|cbn in Hf; congruence].
  apply is_dir_true in Dc. fold (at_dir st1 (clone_dir s tag)) in *. rewrite Hs in *. rewrite for_each_app in *.
  set (m := bind (for_each before (cmake_legion env s)) (fun _ => for_each (c :: after) (cmake_legion env s))) in *.
  assert (Hb' : forall c', In c' before -> branch_tag c' = tag /\ known_type (build_tag c')) by (intros; apply Wc; apply in_or_app; left; assumption).
  assert (Ha' : forall c', In c' (c :: after) -> branch_tag c' = tag /\ known_type (build_tag c')) by (intros; apply Wc; apply in_or_app; right; assumption).
  pose proof (@J_configs tag T before (at_dir st1 (clone_dir s tag)) Hb' eq_refl Dc) as JB.
  assert (Ch : forall st2 r, files (fst (match chdir (scratch_dir s) st2 with (st3, Some _) => (st3, r) | (st3, None) => (st3, @None unit) end)) = files st2 /\
     past (fst (match chdir (scratch_dir s) st2 with (st3, Some _) => (st3, r) | (st3, None) => (st3, @None unit) end)) = past st2).
  { intros st2 r. unfold chdir. destruct (is_dir (files st2 (scratch_dir s))); split; reflexivity. }
  destruct (m (at_dir st1 (clone_dir s tag))) as [st2 r] eqn:M. destruct (Ch st2 r) as [Ch1 Ch2]. rewrite Ch2. rewrite Ch1 in Hf. clear Ch Ch1 Ch2.
  edestruct (@J_split _ (fun p => inside (clone_dir s tag) p \/ exists c', In c' (c :: after) /\ below (library s c') p) _ _ (flat_map (config_plan s) (c :: after)) _ (fun _ => for_each (c :: after) (cmake_legion env s)) _ p JB)
    as (st3 & new3 & E3 & Q3 & P3 & A3 & L3).
  { intros st3 E3. unfold J in JB. rewrite E3 in JB. destruct JB as (C3 & F3 & _). apply J_configs; auto.
    rewrite C3. cbn [cwd at_dir]. destruct (node_dec (files st3 (clone_dir s tag)) (files st1 (clone_dir s tag))) as [H|H]; [congruence|]. destruct (F3 _ H) as [I|(c' & I & B)]; [destruct (inside_irrefl I)|].
    exfalso. destruct (Hb' _ I) as [Bc' Kc']. eapply library_not_above_clone; [exact T|exact Kc'|rewrite Bc'; apply known_master, T|exact B]. }
  { fold m. rewrite M. cbn [fst files at_dir]. congruence. }
  { intros [H|(c' & I & B)]; [eapply clone_library_disjoint; [exact Hlp|exact T|exact Kc|exact MT|apply inside_below, H|exact Hp]|].
    destruct (Hb' _ I) as [_ Kc']. apply (@split_configs tag before c after (wanted argv) Hs (NoDup_wanted argv) c' I). eapply libraries_disjoint; [exact Kc'|exact Kc|exact B|exact Hp]. }
  fold m in Q3. rewrite M in Q3. pose proof (@J_configs tag T (c :: after) st3 Ha') as JA. unfold J in JA, JB. rewrite E3 in JB. destruct JB as (C3 & F3 & _).
  destruct (for_each (c :: after) (cmake_legion env s) st3) as [st4 r4]. injection Q3 as -> ->. destruct JA as (_ & _ & todo4 & new4 & _ & A4 & _).
  { rewrite C3. reflexivity. }
  { rewrite C3. cbn [cwd at_dir]. destruct (node_dec (files st3 (clone_dir s tag)) (files st1 (clone_dir s tag))) as [H|H]; [congruence|]. destruct (F3 _ H) as [I|(c' & I & B)]; [destruct (inside_irrefl I)|].
    exfalso. destruct (Hb' _ I) as [Bc' Kc']. eapply library_not_above_clone; [exact T|exact Kc'|rewrite Bc'; apply known_master, T|exact B]. }
  exists (new1 ++ new3 ++ new4), (commands new4). split; [rewrite A4, A3; cbn [past at_dir]; rewrite A1, !app_assoc; reflexivity|]. rewrite !commands_app, L1, L3. reflexivity.
Qed.
End Legion.
Lemma change_ext d (m m' : script unit) st : (forall st1, m st1 = m' st1) -> change_directory d m st = change_directory d m' st.
Proof.
  intros H. unfold change_directory, bind. destruct (getcwd st) as [st0 [prev|]]; [|reflexivity]. destruct (chdir d st0) as [st1 [[]|]]; [|reflexivity]. rewrite H. reflexivity.
Qed.
Lemma build_legion_flat env s argv st : files st (scratch_dir s) = Dir -> build_legion env s argv st = for_each legion_branches (branch_script env s argv) (at_dir st (scratch_dir s)).
Proof.
  intros Hd. unfold build_legion, bind, chdir. rewrite Hd. cbn [is_dir]. fold (at_dir st (scratch_dir s)). apply for_each_ext. intros [[tag name] commit] st1 _. unfold branch_script, bind.
  destruct (clone_legion env s tag name commit st1) as [st2 [[]|]]; [|reflexivity]. apply change_ext. intros st3. unfold configs_of. rewrite <- for_each_flat. apply for_each_ext. intros [bt bty] st4 _. cbn [fst snd].
  rewrite C93_options. rewrite <- for_each_map. apply for_each_ext. intros [a b] st5 _. reflexivity.
Qed.
(** build_legion.py.  It changes nothing except the clones it makes in SCRATCH_DIR and the library directories of the wanted configurations; the commands it runs are the
    planned ones, in order: for each branch git clone and git checkout, then for each wanted configuration configuring, building and installing; a command that fails is the last. *)
Theorem C93_build_legion : forall env s argv st, well_behaved env -> files st (scratch_dir s) = Dir -> ~ inside (lib_prefix s) (scratch_dir s) ->
  let '(st', r) := build_legion env s argv st in
  cwd st' = scratch_dir s /\
  (forall p, files st' p <> files st p -> exists tag, In tag ["master"; "r2412"] /\ (below (clone_dir s tag) p \/ exists c, In c (configs_of (wanted argv) tag) /\ below (library s c) p)) /\
  exists new todo, past st' = past st ++ new /\ flat_map (branch_plan s argv) legion_branches = commands new ++ todo /\
    match r with Some _ => todo = [] /\ Forall passed new | None => stopped_by_command new \/ Forall passed new end.
Proof.
  intros env s argv st good Hd Ha. rewrite build_legion_flat by exact Hd. assert (K := @J_branches env s good Ha argv legion_branches (at_dir st (scratch_dir s)) (fun b H => H) eq_refl Hd). unfold J in K.
  destruct (for_each legion_branches (branch_script env s argv) (at_dir st (scratch_dir s))) as [st' r]. destruct K as (K1 & K2 & todo & new & K3 & K4 & K5). split; [exact K1|]. split.
  - intros p Hp. destruct (K2 p Hp) as (b & Hb & A). exists (fst (fst b)). split; [destruct Hb as [<-|[<-|[]]]; cbn; auto|exact A].
  - exists new, todo. split; [exact K4|]. split; [exact K3|]. destruct r; [exact K5|]. destruct K5 as [K5|[K5 _]]; auto.
Qed.
(** Wherever the script stops, a library directory is touched only after all the commands for everything that comes before it in the plan were run: the libraries of the
    configurations that were not reached are as they were. *)
Theorem C93_build_legion_order : forall env s argv st, well_behaved env -> files st (scratch_dir s) = Dir -> ~ inside (lib_prefix s) (scratch_dir s) ->
  (forall tag, In tag ["master"; "r2412"] -> ~ below (clone_dir s tag) (lib_prefix s)) ->
  forall bs b bs' before c after p, legion_branches = bs ++ b :: bs' -> configs_of (wanted argv) (fst (fst b)) = before ++ c :: after -> below (library s c) p ->
  files (fst (build_legion env s argv st)) p <> files st p ->
  exists new more, past (fst (build_legion env s argv st)) = past st ++ new /\
    commands new = flat_map (branch_plan s argv) bs ++ clone_plan s b ++ flat_map (config_plan s) before ++ more.
Proof.
  intros env s argv st good Hd Ha Hl bs b bs' before c after p Hb Hc Hp Hf. rewrite build_legion_flat in * by exact Hd. rewrite Hb in Hf |- *. rewrite for_each_app in *. cbn [for_each] in *.
  assert (In_b : In b legion_branches) by (rewrite Hb; apply in_or_app; right; left; reflexivity).
  assert (In_bs : forall x, In x bs -> In x legion_branches) by (intros; rewrite Hb; apply in_or_app; left; assumption).
  assert (In_bs' : forall x, In x bs' -> In x legion_branches) by (intros; rewrite Hb; apply in_or_app; right; right; assumption).
  assert (ND : NoDup (map (fun x => fst (fst x)) legion_branches)) by (cbn; repeat constructor; cbn; intuition discriminate).
  assert (Kt : forall x, In x legion_branches -> known_tag (fst (fst x))) by (intros [[t n] co] H; exists n, co; exact H).
  assert (Lp : forall x, In x legion_branches -> ~ below (clone_dir s (fst (fst x))) (lib_prefix s)) by (intros x H; apply Hl; destruct H as [<-|[<-|[]]]; cbn; auto).
  destruct (@wanted_configs argv (fst (fst b)) c) as [Bc Kc]; [rewrite Hc; apply in_or_app; right; left; reflexivity|].
  assert (MT : branch_tag c = "master" \/ branch_tag c = "r2412") by (rewrite Bc; apply known_master, Kt, In_b).
  assert (Other : forall x, In x legion_branches -> fst (fst x) <> fst (fst b) -> ~ branch_area s argv x p).
  { intros x Hx Nx [H|(c' & I & H)].
    - eapply clone_library_disjoint; [exact Ha|apply Lp, Hx|apply Kt, Hx|exact Kc|exact MT|exact H|exact Hp].
    - destruct (wanted_configs _ _ _ I) as [B' K']. destruct (@libraries_disjoint s c' c p K' Kc H Hp) as (S & _). congruence. }
  assert (Nbs : forall x, In x bs \/ In x bs' -> fst (fst x) <> fst (fst b)).
  { intros x Hx E. rewrite Hb, map_app in ND. cbn [map] in ND. apply NoDup_remove_2 in ND. apply ND. rewrite <- E. apply in_or_app. destruct Hx as [Hx|Hx]; [left|right]; apply in_map_iff; exists x; auto. }
  set (st0 := at_dir st (scratch_dir s)) in *. assert (D0 : files st0 (cwd st0) = Dir) by exact Hd.
  assert (keep : forall F plan m st1 st2 r, J F True plan m st1 -> ~ F (scratch_dir s) -> m st1 = (st2, r) -> cwd st1 = scratch_dir s -> files st1 (cwd st1) = Dir -> cwd st2 = scratch_dir s /\ files st2 (cwd st2) = Dir).
  { intros F plan m st1 st2 r Q N E C D. unfold J in Q. rewrite E in Q. destruct Q as (Q1 & Q2 & _). split; [congruence|]. rewrite Q1. destruct (node_dec (files st2 (cwd st1)) (files st1 (cwd st1))) as [H|H]; [congruence|].
    destruct N. rewrite <- C. apply Q2, H. }
  pose proof (@J_branches env s good Ha argv bs st0 In_bs eq_refl D0) as J0.
  assert (N0 : ~ (exists b0, In b0 bs /\ branch_area s argv b0 (scratch_dir s))) by (intros (x & _ & H); revert H; apply scratch_not_area; exact Ha).
  edestruct (@J_split _ (fun q => exists x, In x (b :: bs') /\ branch_area s argv x q) _ _ (flat_map (branch_plan s argv) (b :: bs')) _ (fun _ => for_each (b :: bs') (branch_script env s argv)) st0 p J0) as (st1 & new1 & E1 & Q1 & P1 & A1 & L1).
  { intros st1 E1. edestruct keep as [C1 D1]; [exact J0|exact N0|exact E1|reflexivity|exact D0|]. apply J_branches; auto. intros x [<-|H]; auto. }
  { exact Hf. }
  { intros (x & I & H). revert H. apply Other; auto. }
  edestruct keep as [C1 D1]; [exact J0|exact N0|exact E1|reflexivity|exact D0|].
  cbn [for_each] in Q1. rewrite Q1 in *. pose proof (@J_branch env s good Ha argv b st1 In_b C1 D1) as J1.
  assert (Hf1 : files (fst (branch_script env s argv b st1)) p <> files st1 p /\
    exists new2, past (fst ((branch_script env s argv b;; for_each bs' (branch_script env s argv)) st1)) = past (fst (branch_script env s argv b st1)) ++ new2).
  { unfold bind in *. destruct (branch_script env s argv b st1) as [st2 [[]|]] eqn:E2; cbn [fst] in *; [|split; [rewrite P1; exact Hf|exists []; now rewrite app_nil_r]].
    edestruct keep as [C2 D2]; [exact J1|apply scratch_not_area; exact Ha|exact E2|exact C1|exact D1|].
    pose proof (@J_branches env s good Ha argv bs' st2 In_bs' C2 D2) as J2. unfold J in J2. destruct (for_each bs' (branch_script env s argv) st2) as [st3 r3]. cbn [fst] in *. destruct J2 as (_ & F3 & todo & new & _ & A3 & _).
    split; [|exists new; exact A3]. rewrite P1. intros E. destruct (node_dec (files st3 p) (files st2 p)) as [H|H]; [apply Hf; rewrite H; exact E|]. destruct (F3 _ H) as (x & I & A). revert A. apply Other; auto. }
  destruct Hf1 as [Hf1 [new3 A3]]. destruct (@branch_order env s good Ha argv b before c after st1 p In_b C1 D1 (Lp b In_b) Hc Hp Hf1) as (new2 & more & A2 & L2).
  exists (new1 ++ new2 ++ new3), (more ++ commands new3). split; [rewrite A3, A2, A1, !app_assoc; reflexivity|]. rewrite !commands_app, L1, L2, <- !app_assoc. reflexivity.
Qed.

(** ** build_dependencies.py *)
Definition kokkos_source (s : settings) : path := scratch_dir s ++ ["kokkos-4.5.01"].
Definition kokkos_library (s : settings) (cuda : bool) : path := lib_prefix s ++ [if cuda then "kokkos-4.5.01-cuda" else "kokkos-4.5.01-nocuda"].
Definition kokkos_plan (s : settings) (cuda : bool) : list (path * list word) :=
  let d := kokkos_source s ++ [if cuda then "build-cuda" else "build-nocuda"] in
  [(d, configure [W "cmake"; W ".."] (kokkos_defines s cuda)); (d, [W "cmake"; W "--build"; W "."; W "--parallel"; N (match cpu_count s with Some n => n | None => 8%Z end)]);
   (d, [W "ctest"]); (d, [W "make"; W "install"])].
Lemma kokkos_prefix s cuda : prefix_in (configure [W "cmake"; W ".."] (kokkos_defines s cuda)) = Some (kokkos_library s cuda).
Proof. unfold kokkos_defines. destruct cuda, (no_rdtsc (the_machine s)); reflexivity. Qed.
(** With --skip-kokkos nothing happens.  Otherwise only things in SCRATCH_DIR and the two Kokkos libraries are changed, by the planned commands in order, the version with CUDA
    first; a failure of ctest is the only one that does not stop the script. *)
Theorem C93_build_dependencies : forall env s argv st, well_behaved env -> files st (scratch_dir s) = Dir -> ~ inside (lib_prefix s) (scratch_dir s) ->
  (In "--skip-kokkos" argv -> build_dependencies env s argv st = (st, Some tt)) /\
  (~ In "--skip-kokkos" argv ->
   let '(st', r) := build_dependencies env s argv st in
   cwd st' = scratch_dir s /\ (forall p, files st' p <> files st p -> inside (scratch_dir s) p \/ exists cuda, below (kokkos_library s cuda) p) /\
   exists new todo, past st' = past st ++ new /\
     [(scratch_dir s, [W "wget"; W "https://github.com/kokkos/kokkos/archive/refs/tags/4.5.01.zip"]); (scratch_dir s, [W "unzip"; W "4.5.01.zip"])] ++ kokkos_plan s true ++ kokkos_plan s false = commands new ++ todo /\
     match r with Some _ => todo = [] /\ Forall passed new | None => stopped_by_command new \/ Forall passed new end).
Proof.
  intros env s argv st good Hd Ha. unfold build_dependencies.
  assert (E : existsb (String.eqb "--skip-kokkos") argv = if in_dec string_dec "--skip-kokkos" argv then true else false).
  { destruct (in_dec string_dec "--skip-kokkos" argv) as [H|H]; [apply existsb_exists; exists "--skip-kokkos"; split; [exact H|apply String.eqb_refl]|].
    destruct (existsb _ argv) eqn:E; [|reflexivity]. apply existsb_exists in E. destruct E as (y & Hy & E). apply String.eqb_eq in E. subst. contradiction. }
  rewrite E. destruct (in_dec string_dec "--skip-kokkos" argv) as [H|H]; (split; [intros H'|intros H']); try contradiction; [reflexivity|]. clear E H'.
  unfold bind at 1, chdir at 1. rewrite Hd. cbn [is_dir]. fold (at_dir st (scratch_dir s)). set (st0 := at_dir st (scratch_dir s)). fold (kokkos_source s).
  pose (F := fun p => inside (scratch_dir s) p \/ exists cuda, below (kokkos_library s cuda) p).
  assert (Fs : ~ F (scratch_dir s)).
  { intros [K|(cuda & K)]; [apply (inside_irrefl K)|]. apply Ha. unfold kokkos_library in K. apply below_inside in K. exact K. }
  assert (keep : forall (m : script unit) st1 st2, cwd st1 = scratch_dir s -> files st1 (scratch_dir s) = Dir -> (forall p, files st2 p <> files st1 p -> F p) -> files st2 (scratch_dir s) = Dir).
  { intros m st1 st2 C D K. destruct (node_dec (files st2 (scratch_dir s)) (files st1 (scratch_dir s))) as [L|L]; [congruence|destruct (Fs (K _ L))]. }
  match goal with |- let '(st', r) := ?m st0 in _ => assert (K : J F True ([] ++ [(scratch_dir s, [W "wget"; W "https://github.com/kokkos/kokkos/archive/refs/tags/4.5.01.zip"])] ++ [(scratch_dir s, [W "unzip"; W "4.5.01.zip"])] ++ kokkos_plan s true ++ kokkos_plan s false) m st0) end.
  { apply J_bind; [apply J_remove; auto; intros q B; left; eapply below_inside, B|]. intros st1 _ C1 F1. change (cwd st0) with (scratch_dir s) in C1. assert (D1 := keep (ret tt) st0 st1 eq_refl Hd F1).
    apply J_bind. { rewrite <- C1. apply J_run; [exact good|left; split; [reflexivity|discriminate]|]. intros p K. rewrite C1 in K. left. eapply writes_inside; [| |exact K]; intros; discriminate. }
    intros st2 _ C2 F2. rewrite C1 in C2. assert (D2 := keep (ret tt) st1 st2 C1 D1 F2).
    apply J_bind. { rewrite <- C2. apply J_run; [exact good|left; split; [reflexivity|discriminate]|]. intros p K. rewrite C2 in K. left. eapply writes_inside; [| |exact K]; intros; discriminate. }
    intros st3 _ C3 F3. rewrite C2 in C3. assert (D3 := keep (ret tt) st2 st3 C2 D2 F3).
    pose (G := fun p => inside (kokkos_source s) p \/ exists cuda, below (kokkos_library s cuda) p).
    assert (GF : forall p, G p -> F p) by (intros p [K|K]; [left; eapply below_inside, inside_below, K|right; exact K]).
    eapply J_weaken with (F := G) (R := True); [|exact GF|auto].
    assert (NoKokkos : forall cuda, ~ below (kokkos_library s cuda) (kokkos_source s)).
    { intros cuda [r Q]. unfold kokkos_library, kokkos_source in Q. rewrite <- app_assoc in Q. cbn [app] in Q. destruct r as [|x r].
      - apply app_inj_tail in Q. destruct Q as [_ Q]. destruct cuda; discriminate.
      - destruct (@exists_last _ (x :: r)) as (l & y & L); [discriminate|]. rewrite L in Q. match type of Q with _ = _ ++ ?z :: l ++ [y] => change (z :: l ++ [y]) with ((z :: l) ++ [y]) in Q end.
        rewrite app_assoc in Q. apply app_inj_tail in Q. destruct Q as [Q _]. apply Ha. rewrite Q. eexists _, l. reflexivity. }
    assert (Gk : ~ G (kokkos_source s)) by (intros [K|(cuda & K)]; [apply (inside_irrefl K)|apply (NoKokkos _ K)]).
    apply J_change; [rewrite C3; exact D3|auto|rewrite C3; intros K; apply Fs, GF, K|]. intros Dk.
    assert (Step : forall cuda st4, cwd st4 = kokkos_source s -> files st4 (cwd st4) = Dir ->
      J G True (kokkos_plan s cuda) (cmake env (cpu_count s) (kokkos_source s ++ [if cuda then "build-cuda" else "build-nocuda"]) (kokkos_defines s cuda) true true true [W "cmake"; W ".."]) st4).
    { intros cuda st4 C4 D4. apply (@J_cmake env good G True (cpu_count s) _ (kokkos_defines s cuda) true true true "cmake" [W ".."] st4); try discriminate; auto.
      - rewrite C4. exact Gk.
      - intros p K. left. eapply below_inside, K.
      - intros _. exists (kokkos_library s cuda). split; [apply kokkos_prefix|]. intros p K. right. exists cuda. exact K. }
    assert (Ka : forall x, scratch_dir s ++ ["kokkos-4.5.01"; x] = kokkos_source s ++ [x]) by (intros; unfold kokkos_source; rewrite <- app_assoc; reflexivity). rewrite !Ka.
    apply J_bind; [apply (Step true); [reflexivity|exact Dk]|]. intros st5 _ C5 F5. apply (Step false); [exact C5|]. rewrite C5. cbn [cwd at_dir] in *.
    destruct (node_dec (files st5 (kokkos_source s)) (files st3 (kokkos_source s))) as [L|L]; [congruence|destruct (Gk (F5 _ L))]. }
  unfold J in K. match goal with |- let '(st', r) := ?m st0 in _ => destruct (m st0) as [st' r] end. destruct K as (K1 & K2 & todo & new & K3 & K4 & K5).
  split; [exact K1|]. split; [exact K2|]. exists new, todo. split; [exact K4|]. split; [exact K3|]. destruct r; [exact K5|]. destruct K5 as [K5|[K5 _]]; auto.
Qed.

(** ** The scripts fit together *)
(** the value of the last -Dkey=value of a command *)
Definition defined (key : string) (cmd : list word) : option value :=
  fold_left (fun acc w => match w with D k v => if String.eqb k key then Some v else acc | _ => acc end) cmd None.
(** For every configuration and machine: this project is configured with the Legion that build_legion.py installs for this configuration, and with the same build type; that Legion
    has CUDA exactly if the configuration has; both use the same Kokkos, exactly if the configuration has Kokkos, and it is the one that build_dependencies.py installs with or
    without CUDA accordingly. *)
Theorem C93_matching : forall s c source,
  let here := configure_command s source c in let legion := configure [W "cmake"; W ".."] (legion_defines s c) in let kokkos := configure [W "cmake"; W ".."] (kokkos_defines s (use_cuda c)) in
  (exists lib dir, defined "CMAKE_INSTALL_PREFIX" legion = Some (VPath lib) /\ defined "Legion_DIR" here = Some (VPath dir) /\ inside lib dir) /\
  defined "CMAKE_BUILD_TYPE" here = defined "CMAKE_BUILD_TYPE" legion /\ defined "CMAKE_CXX_STANDARD" here = defined "CMAKE_CXX_STANDARD" legion /\
  defined "Legion_USE_CUDA" legion = Some (VBool (use_cuda c)) /\ defined "Legion_USE_Kokkos" legion = (if use_kokkos c then Some (VBool true) else None) /\
  defined "Kokkos_DIR" here = defined "Kokkos_DIR" legion /\
  (if use_kokkos c then exists lib dir, defined "CMAKE_INSTALL_PREFIX" kokkos = Some (VPath lib) /\ defined "Kokkos_DIR" here = Some (VPath dir) /\ inside lib dir else defined "Kokkos_DIR" here = None) /\
  defined "Kokkos_ENABLE_CUDA" kokkos = (if use_cuda c then Some (VBool true) else None) /\
  (forall dir, defined "Kokkos_DIR" here = Some (VPath dir) -> forall lib, defined "CMAKE_INSTALL_PREFIX" (configure [W "cmake"; W ".."] (kokkos_defines s (negb (use_cuda c)))) = Some (VPath lib) -> ~ below lib dir).
Proof.
  intros s c source here legion kokkos. unfold here, legion, kokkos, configure_command, legion_defines, kokkos_defines, configure. clear here legion kokkos.
  destruct c as [b [] [] t bt]; cbn [use_cuda use_kokkos negb]; destruct (the_machine s) eqn:M; (split; [eexists _, _; split; [reflexivity|]; split; [reflexivity|]; eexists _, _; reflexivity|]);
    repeat (split; [reflexivity|]); try (split; [eexists _, _; split; [reflexivity|]; split; [reflexivity|]; unfold kokkos_cmake_path; rewrite M; eexists _, _; rewrite <- app_assoc; reflexivity|]);
    repeat (split; [reflexivity|]); cbn; intros dir Q lib Q'; try discriminate Q; injection Q as <-; injection Q' as <-; unfold kokkos_cmake_path; rewrite M; intros [r K]; rewrite <- app_assoc in K; apply app_inv_head in K; discriminate K.
Qed.
(** change_directory, around any code whatsoever: if the old directory still exists when that code ends, normally or with an exception, the script is back there and the outcome is that of the code. *)
Theorem C93_change_directory : forall d body st, files st (cwd st) = Dir -> files st d = Dir ->
  let '(st1, r1) := body (mk_computer (files st) d (past st)) in
  files st1 (cwd st) = Dir -> change_directory d body st = (mk_computer (files st1) (cwd st) (past st1), r1).
Proof.
  intros d body st Hc Hd. unfold change_directory, bind, getcwd, chdir at 1. rewrite Hc, Hd. cbn [is_dir]. destruct (body _) as [st1 r1]. intros H. unfold chdir. rewrite H. reflexivity.
Qed.

(** ** Example: a machine on which every command succeeds, git clone creates its directory and make install the configured prefix *)
Lemma word_dec (a b : word) : {a = b} + {a <> b}.
Proof. repeat decide equality. Defined.
Definition adds (p : path) (t : path -> node) : path -> node := fun q => if path_eqb q p then Dir else t q.
Definition example_env : effect_of_commands := fun h d cmd t =>
  (match cmd with
   | [a; b; c; W br; W u; W dir] => if list_eq_dec word_dec [a; b; c] [W "git"; W "clone"; W "--branch"] then adds (d ++ [dir]) t else t
   | [a; b] => if list_eq_dec word_dec [a; b] [W "make"; W "install"] then match install_prefix h d with Some q => adds q t | None => t end else t
   | _ => t
   end, Succeeded).
Lemma adds_changes p t q : adds p t q <> t q -> q = p.
Proof. unfold adds. destruct (path_eqb_spec q p); [auto|intros H; now destruct H]. Qed.
Lemma example_well_behaved : well_behaved example_env.
Proof.
  intros h d cmd t p. unfold example_env. cbn [fst]. destruct cmd as [|a [|b [|c [|w1 [|w2 [|w3 [|]]]]]]]; try (intros H; now destruct H).
  - destruct (list_eq_dec word_dec [a; b] [W "make"; W "install"]) as [E|E]; [|intros H; now destruct H]. destruct (install_prefix h d) as [q|] eqn:Q; [|intros H; now destruct H]. intros H. apply adds_changes in H. subst p.
    right. right. injection E as -> ->. split; [reflexivity|]. exists q. split; [exact Q|apply below_refl].
  - destruct w1; intros H; now destruct H.
  - destruct w1; try (intros H; now destruct H). destruct w2; intros H; now destruct H.
  - destruct w1; try (intros H; now destruct H). destruct w2; try (intros H; now destruct H). destruct w3; try (intros H; now destruct H).
    destruct (list_eq_dec word_dec [a; b; c] [W "git"; W "clone"; W "--branch"]) as [E|E]; [|intros H; now destruct H]. intros H. apply adds_changes in H. subst p.
    left. injection E as -> -> ->. exists s, s0, s1. split; [reflexivity|apply below_refl].
  - destruct w1; try (intros H; now destruct H). destruct w2; try (intros H; now destruct H). destruct w3; intros H; now destruct H.
Qed.
Definition example_settings : settings := mk_settings ["scratch"] ["lib"] LASSEN (Some 40%Z).
Definition example_start : computer :=
  mk_computer (fun p => if existsb (path_eqb p) [[]; ["scratch"]; ["lib"]; ["repo"]; ["scratch"; "LegionSolversBuild"]; ["scratch"; "legion_master"]] then Dir else Nothing) ["repo"] [].
(** Build Legion without CUDA and Kokkos, go back to the source, configure and build: two branches, two build types. *)
Example C93_example : well_behaved example_env /\ files example_start ["scratch"] = Dir /\ ~ inside ["lib"] ["scratch"] /\
  let '(st1, r1) := build_legion example_env example_settings ["--skip-cuda"; "--skip-kokkos"] example_start in
  let '(st2, r2) := (chdir ["repo"] ;; refresh_cmake example_env example_settings) st1 in
  let '(st3, r3) := make_all example_env example_settings st2 in
  (r1, r2, r3) = (Some tt, Some tt, Some tt) /\ length (commands (past st1)) = 16 /\
  map fst (commands (skipn (length (past st2)) (past st3))) =
    [["scratch"; "LegionSolversBuild"; "master_nocuda_nokokkos_debug"]; ["scratch"; "LegionSolversBuild"; "master_nocuda_nokokkos_release"];
     ["scratch"; "LegionSolversBuild"; "r2412_nocuda_nokokkos_debug"]; ["scratch"; "LegionSolversBuild"; "r2412_nocuda_nokokkos_release"]].
Proof.
  split; [exact example_well_behaved|]. split; [reflexivity|]. split; [intros (x & r & E); discriminate E|]. vm_compute. repeat split.
Qed.
