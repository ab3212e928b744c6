(** PropsPrograms: C96, the programs in test/ release what they create. *)
Require Import List Arith Bool ZArith Lia.
From Verif Require Import Ownership OwnershipSpec OwnershipFacts OwnershipPlanner OwnershipInv OwnershipKinds
  OwnershipDrops PropsOwnership PropsLeaks OwnershipExample OwnershipPrograms.
Import ListNotations.
Set Implicit Arguments.

(** ** Leaving a program *)

(** The call that gives back one reference to an object of kind [k]. *)
Definition drop_of (k : okind) (o : nat) : action :=
  match k with
  | OSpace => ADropSpace o
  | OFields => ADropFields o
  | ORegion is fs => ADropRegion (Region o is fs)
  | OPart _ _ => ADropPartition o
  end.

(** [t] gives back each of the references [user] and ends the life of each of the objects [env] once,
    in some order in which a matrix ends after the planners that were given it, and a partition is
    given back while somebody still holds its index space. *)
Inductive lets_go (kind : nat -> okind) (lost : list nat) : list nat -> list (nat * cobj) -> list action -> Prop :=
| lg_done : lets_go kind lost [] [] []
| lg_drop o user env t :
    In o user ->
    (forall q k, kind o = OPart q k -> In q (remove_one o user) \/ In q (env_refs env) \/ In q lost) ->
    lets_go kind lost (remove_one o user) env t ->
    lets_go kind lost user env (drop_of (kind o) o :: t)
| lg_delete n x user env t :
    lookup n env = Some x ->
    (forall m, x = CMat m -> forall k p, In (k, CPlan p) env -> ~ points_to p n) ->
    lets_go kind lost user (unset n env) t ->
    lets_go kind lost user env (ADelete n :: t).

Lemma remove_one_In x o l : In x (remove_one o l) -> In x l.
Proof. induction l as [|y l IH]; cbn; auto. destruct (o =? y); cbn; tauto. Qed.

Lemma drop_noab c o k : step c (drop_of k o) <> CAbort /\
  forall c', step c (drop_of k o) = COk c' -> exists s, c' = take_user c o s.
Proof.
  assert (R : forall (m : rt unit) L, drops m L -> run m c (fun _ s => take_user c o s) <> CAbort /\
    forall c', run m c (fun _ s => take_user c o s) = COk c' -> exists s, c' = take_user c o s).
  { intros m L D. unfold run. destruct (m (c_rt c)) as [a s| |] eqn:e; split; try discriminate.
    - intros c' H. injection H as <-. eauto.
    - destruct (d_noabort D _ e). }
  destruct k; cbn [drop_of step].
  - eapply R, drops_space.
  - eapply R, drops_fields.
  - cbn [rg_id]. eapply R, drops_region.
  - eapply R, drops_part.
Qed.

Lemma lets_go_runs kind lost user env t : lets_go kind lost user env t ->
  forall c, ok c -> c_user c = user -> c_env c = env -> c_lost c = lost ->
  (forall o, In o user -> l_kind (c_rt c) o = kind o) ->
  exists c', reaches c t c' /\ c_user c' = [] /\ c_env c' = [] /\ c_lost c' = lost.
Proof.
  induction 1 as [|o user env t Ho HP L IH|n x user env t Hx HM L IH]; intros c O EU EE EL K.
  - exists c. repeat split; auto.
  - assert (OW : forall z, In z user \/ In z (env_refs env) \/ In z lost -> 0 < owners c z).
    { intros z Hz. unfold owners. rewrite EU, EE, EL. rewrite !cnt_In in Hz. lia. }
    assert (A : alive (c_rt c) o).
    { unfold alive. rewrite (ok_refs o O). unfold expected_refs. pose proof (OW o (or_introl Ho)) as P.
      destruct (l_kind (c_rt c) o) as [| | |q k] eqn:Kq; try lia.
      rewrite K in Kq by auto. destruct (HP _ _ Kq) as [Z|Z].
      - pose proof (OW q (or_introl (remove_one_In _ _ _ Z))). destruct (Nat.eqb_spec (owners c q) 0); lia.
      - pose proof (OW q (or_intror Z)). destruct (Nat.eqb_spec (owners c q) 0); lia. }
    assert (LG : legal c (drop_of (kind o) o)).
    { pose proof (K _ Ho) as Kk. rewrite <- Kk. destruct (l_kind (c_rt c) o) eqn:Kq; cbn [drop_of legal].
      - rewrite EU. split; [auto|]. split; auto.
      - rewrite EU. auto.
      - cbn [rg_id rg_is rg_fs]. rewrite EU. auto.
      - rewrite EU. split; [auto|]. split; [auto|]. eauto. }
    destruct (drop_noab c o (kind o)) as [NA SH].
    destruct (step c (drop_of (kind o) o)) as [c1| |] eqn:e; [| |congruence].
    2:{ pose proof (step_good _ (ok_inv O) LG) as G. rewrite e in G. destruct G. }
    destruct (SH _ eq_refl) as [s ->]. destruct (ok_step _ O LG e) as [O1 X].
    destruct (IH (take_user c o s) O1) as (c' & [R1 R2] & E1 & E2 & E3); cbn [take_user c_user c_env c_lost c_rt] in *;
      rewrite ?EU; auto.
    { intros z Hz. apply remove_one_In in Hz. rewrite (proj2 X); [auto|]. apply ok_owned; auto. }
    exists c'. split; [split|auto].
    + cbn [legal_history]. split; [exact LG|]. intros d Hd. rewrite e in Hd. injection Hd as <-. exact R1.
    + cbn [run_history]. rewrite e. exact R2.
  - assert (LG : legal c (ADelete n)).
    { cbn [legal]. exists x. rewrite EE. split; [auto|]. intros m -> . eapply HM; reflexivity. }
    assert (ST : step c (ADelete n) = run (dtor x) c (fun _ s => del_obj c n s)) by (cbn [step]; rewrite EE, Hx; reflexivity).
    destruct (step c (ADelete n)) as [c1| |] eqn:e.
    + symmetry in ST. unfold run in ST. destruct (dtor x (c_rt c)) as [a s| |] eqn:D; try discriminate.
      injection ST as EC. destruct (ok_step _ O LG e) as [O1 X].
      destruct (IH c1 O1) as (c' & [R1 R2] & E1 & E2 & E3); rewrite <- ?EC; cbn [del_obj c_user c_env c_lost c_rt]; rewrite ?EE; auto.
      { intros z Hz. rewrite <- EC in X. cbn [del_obj c_rt] in X. rewrite (proj2 X); [auto|].
        apply ok_owned; auto. unfold owners. rewrite EU. rewrite cnt_In in Hz. lia. }
      exists c'. split; [split|auto].
      * cbn [legal_history]. split; [exact LG|]. intros d Hd. rewrite e in Hd. injection Hd as <-. exact R1.
      * cbn [run_history]. rewrite e. exact R2.
    + pose proof (step_good _ (ok_inv O) LG) as G. rewrite e in G. destruct G.
    + symmetry in ST. unfold run in ST. destruct (dtor x (c_rt c)) as [a s| |] eqn:D; try discriminate.
      destruct (d_noabort (drops_dtor x) _ D).
Qed.

(** Any correct program that ends by letting go of everything it has runs to its end without an
    illegal call or a failed assertion, and what is then still alive are the references that
    library functions lost, each partition among them only if its index space is, too. *)
Theorem C96_scope_exit : forall h c t, reaches client_init h c ->
  lets_go (l_kind (c_rt c)) (c_lost c) (c_user c) (c_env c) t ->
  exists c', reaches client_init (h ++ t) c' /\ c_user c' = [] /\ c_env c' = [] /\
  (forall o, o < l_next (c_rt c) -> l_kind (c_rt c') o = l_kind (c_rt c) o) /\
  forall o, l_refs (c_rt c') o =
    match l_kind (c_rt c') o with
    | OPart q _ => if existsb (Nat.eqb q) (c_lost c) then count_occ Nat.eq_dec (c_lost c) o else 0
    | _ => count_occ Nat.eq_dec (c_lost c) o
    end.
Proof.
  intros h c t R L. destruct (lets_go_runs L (ok_start R)) as (c' & R' & E1 & E2 & E3); auto.
  pose proof (reaches_app R R') as RR. exists c'. split; [exact RR|]. split; [auto|]. split; [auto|].
  split; [apply (ok_reaches (ok_start R) R')|]. intros o. rewrite (C08_refcount_exact RR o). unfold expected_refs, owners. rewrite E1, E2, E3.
  destruct (l_kind (c_rt c') o) as [| | |q k]; cbn [env_refs flat_map]; rewrite ?cnt_nil; auto.
  unfold cnt. destruct (Nat.eqb_spec (0 + 0 + count_occ Nat.eq_dec (c_lost c) q) 0) as [z|z];
    destruct (existsb (Nat.eqb q) (c_lost c)) eqn:B; auto.
  - apply existsb_exists in B. destruct B as (y & Hy & Ey). apply Nat.eqb_eq in Ey. subst y.
    apply (count_occ_In Nat.eq_dec) in Hy. lia.
  - exfalso. assert (H : In q (c_lost c)) by (apply (count_occ_In Nat.eq_dec); lia).
    assert (existsb (Nat.eqb q) (c_lost c) = true); [|congruence]. apply existsb_exists. exists q. rewrite Nat.eqb_refl. auto.
Qed.

(** ** The workspace of a solver *)

Lemma noab_assert_true b : b = true -> noab (assert_ b).
Proof. intros -> s. discriminate. Qed.
Lemma noab_share o : noab (rt_share o). Proof. unfold rt_share. noab. Qed.
Lemma noab_drops {A} (m : rt A) L : drops m L -> noab m. Proof. intros D s. apply (d_noabort D). Qed.
Lemma noab_lpart r p : noab (rt_logical_partition r p). Proof. unfold rt_logical_partition. noab. Qed.
Lemma noab_region a b : noab (rt_create_logical_region a b). Proof. unfold rt_create_logical_region. noab. Qed.
Lemma noab_parent p : noab (rt_parent_space p). Proof. unfold rt_parent_space. noab. Qed.
Lemma noab_color p : noab (rt_color_space p). Proof. unfold rt_color_space. noab. Qed.
Ltac noab2 := repeat match goal with
  | |- noab (bind _ _) => apply noab_bind; [|intros]
  | |- noab (rt_share _) => apply noab_share
  | |- noab (rt_logical_partition _ _) => apply noab_lpart
  | |- noab (rt_create_logical_region _ _) => apply noab_region
  | |- noab (rt_parent_space _) => apply noab_parent
  | |- noab (rt_color_space _) => apply noab_color
  | |- noab (ret _) => apply noab_ret
  end.
Lemma noab_vec_copy v : noab (vec_copy v). Proof. unfold vec_copy. noab2. Qed.
Lemma noab_vec_log lp : noab (vec_ctor_logical lp). Proof. unfold vec_ctor_logical. noab2. Qed.
Lemma noab_mapM {A B} (f : A -> rt B) l : (forall a, noab (f a)) -> noab (mapM f l).
Proof. intros H. induction l; cbn [mapM]; noab2; auto. Qed.
Lemma noab_iterM {A} (f : A -> rt unit) l : (forall a, noab (f a)) -> noab (iterM f l).
Proof. intros H. induction l; cbn [iterM]; noab2; auto. Qed.
Lemma noab_emplace g l lp : noab (emplace_back g l lp).
Proof.
  unfold emplace_back. noab2; [apply noab_vec_log|]. destruct g; noab2.
  - apply noab_mapM, noab_vec_copy.
  - apply noab_iterM. intros v. eapply noab_drops, drops_vec.
Qed.
Lemma noab_row g lp rows : forall j, noab (workspace_row g j rows lp).
Proof. induction rows; intros j; cbn [workspace_row]; noab2; auto using noab_emplace. Qed.
Lemma noab_loop g wf sps : forall pts i regs lps rows, noab (workspace_loop g i wf sps pts regs lps rows).
Proof.
  induction sps as [|sp sps IH]; intros pts i regs lps rows; destruct pts; cbn [workspace_loop]; noab2; auto using noab_row.
Qed.

(** A planner without a workspace gets one: no assertion fails. *)
Lemma alloc_step h c n p g k : reaches client_init h c -> lookup n (c_env c) = Some (CPlan p) ->
  p_wfields p = None -> p_wregions p = [] -> p_wparts p = [] -> p_work p = [] ->
  length (p_spaces p) = length (p_parts p) ->
  exists c' p', reaches client_init (h ++ [AAlloc g n k]) c' /\
    c_user c' = c_user c /\ c_env c' = set n (CPlan p') (c_env c) /\ c_lost c' = c_lost c /\
    p_mats p' = p_mats p /\
    forall o, o < l_next (c_rt c) -> l_kind (c_rt c') o = l_kind (c_rt c) o.
Proof.
  intros R Hp H1 H2 H3 H4 H5.
  assert (NA : noab (allocate_workspace g p k)).
  { unfold allocate_workspace. rewrite H1, H2, H3, H4, H5, Nat.eqb_refl.
    cbn [is_none is_nil]. repeat (apply noab_bind; [apply noab_assert_true; reflexivity|intros _]).
    apply noab_bind; [intros s; discriminate|intros wf]. apply noab_bind; [apply noab_loop|].
    intros [[regs lps] rows]. apply noab_ret. }
  assert (LG : legal c (AAlloc g n k)) by (exists p; auto).
  pose proof (step_good _ (ok_inv (ok_start R)) LG) as G.
  destruct (step c (AAlloc g n k)) as [c'| |] eqn:e; [|destruct G|].
  2:{ cbn [step] in e. rewrite Hp in e. unfold run in e.
      destruct (allocate_workspace g p k (c_rt c)) eqn:E; try discriminate. destruct (NA _ E). }
  destruct (ok_step _ (ok_start R) LG e) as [O1 X].
  pose proof e as e'. cbn [step] in e'. rewrite Hp in e'. unfold run in e'.
  destruct (allocate_workspace g p k (c_rt c)) as [p' s| |] eqn:E; try discriminate. injection e' as <-.
  exists (set_obj c n (CPlan p') s), p'. split.
  { eapply reaches_app; [exact R|]. split; [|cbn [run_history]; rewrite e; reflexivity].
    cbn [legal_history]. split; [exact LG|]. auto. }
  cbn [set_obj c_user c_env c_lost c_rt] in *. do 3 (split; [reflexivity|]). split.
  - unfold allocate_workspace in E.
    repeat match type of E with
      | bind _ _ _ = _ => apply bind_inv in E; destruct E as (? & ? & _ & E)
      end.
    match type of E with context [match ?y with _ => _ end] => destruct y as [[regs lps] rows] end.
    injection E as <- _. reflexivity.
  - intros o Ho. apply (proj2 X), Ho.
Qed.

(** ** The test programs *)

Ltac is_in := cbn; repeat first [left; reflexivity | right].
Ltac not_pointed :=
  let m := fresh in let k := fresh in let p := fresh in let H := fresh in
  intros m _ k p H; cbn in H; repeat (destruct H as [H|H]; [discriminate|]); destruct H.

Lemma reaches_prefix h c : legal_historyb client_init h = true -> run_history client_init h = COk c -> reaches client_init h c.
Proof. intros A B. split; [apply legal_historyb_ok, A|exact B]. Qed.

Theorem C96_test02 : exists c, reaches client_init test02_handles c /\ c_env c = [] /\ c_user c = [] /\ forall o, ~ alive (c_rt c) o.
Proof.
  eexists. assert (R : reaches client_init test02_handles _) by (apply reaches_prefix; vm_compute; reflexivity).
  split; [exact R|]. split; [reflexivity|]. split; [reflexivity|].
  apply (C19_all_released R); try reflexivity.
  intros a Ha. cbn in Ha. repeat (destruct Ha as [<-|Ha]; [reflexivity|]). destruct Ha.
Qed.
Theorem C96_test03 : exists c, reaches client_init test03_handles c /\ c_env c = [] /\ c_user c = [] /\ forall o, ~ alive (c_rt c) o.
Proof.
  eexists. assert (R : reaches client_init test03_handles _) by (apply reaches_prefix; vm_compute; reflexivity).
  split; [exact R|]. split; [reflexivity|]. split; [reflexivity|].
  apply (C19_all_released R); try reflexivity.
  intros a Ha. cbn in Ha. repeat (destruct Ha as [<-|Ha]; [reflexivity|]). destruct Ha.
Qed.
Theorem C96_test04 : exists c, reaches client_init test04_handles c /\ c_env c = [] /\ c_user c = [] /\ forall o, ~ alive (c_rt c) o.
Proof.
  eexists. assert (R : reaches client_init test04_handles _) by (apply reaches_prefix; vm_compute; reflexivity).
  split; [exact R|]. split; [reflexivity|]. split; [reflexivity|].
  apply (C19_all_released R); try reflexivity.
  intros a Ha. cbn in Ha. repeat (destruct Ha as [<-|Ha]; [reflexivity|]). destruct Ha.
Qed.

(** The state in which a solver is built: what the program holds, and a planner without a workspace. *)
Definition ready (c : client) (n : nat) (p : planner) : Prop :=
  lookup n (c_env c) = Some (CPlan p) /\ p_wfields p = None /\ p_wregions p = [] /\ p_wparts p = [] /\ p_work p = [] /\
  length (p_spaces p) = length (p_parts p).

Lemma ready_alloc h c n p g k : reaches client_init h c -> ready c n p ->
  exists c' p', reaches client_init (h ++ [AAlloc g n k]) c' /\
    c_user c' = c_user c /\ c_env c' = set n (CPlan p') (c_env c) /\ c_lost c' = c_lost c /\
    forall o, o < l_next (c_rt c) -> l_kind (c_rt c') o = l_kind (c_rt c) o.
Proof.
  intros R (H0 & H1 & H2 & H3 & H4 & H5). destruct (@alloc_step h c n p g k R H0 H1 H2 H3 H4 H5) as (c' & p' & A & B & C & D & _ & F).
  exists c', p'. auto.
Qed.


(** The same by computation: [result] of a setup, without spelling the state out. *)
Definition readyb (c : client) (n : nat) : bool :=
  match lookup n (c_env c) with
  | Some (CPlan p) => is_none (p_wfields p) && is_nil (p_wregions p) && is_nil (p_wparts p) && is_nil (p_work p)
      && (length (p_spaces p) =? length (p_parts p))
  | _ => false
  end.
Inductive shape := SVec | SMat | SPlan.
Definition shape_of (x : cobj) : shape := match x with CVec _ => SVec | CMat _ => SMat | CPlan _ => SPlan end.
Definition shapes (e : list (nat * cobj)) : list (nat * shape) := map (fun nx => (fst nx, shape_of (snd nx))) e.
Definition runs (h : list action) : bool := match run_history client_init h with COk _ => true | _ => false end.
Definition okind_dec (a b : okind) : {a = b} + {a <> b}. Proof. decide equality; apply Nat.eq_dec. Defined.
Definition shape_dec (a b : shape) : {a = b} + {a <> b}. Proof. decide equality. Defined.
Definition same {A} (d : forall a b : A, {a = b} + {a <> b}) (a b : A) : bool := if d a b then true else false.
Lemma same_eq {A} (d : forall a b : A, {a = b} + {a <> b}) a b : same d a b = true -> a = b.
Proof. unfold same. destruct (d a b); [auto|discriminate]. Qed.
Definition kinds_are (c : client) (l : list (nat * okind)) : bool :=
  forallb (fun ok => same okind_dec (l_kind (c_rt c) (fst ok)) (snd ok) && (fst ok <? l_next (c_rt c))) l.
Definition nats_dec := list_eq_dec Nat.eq_dec.
Definition shapes_dec (a b : list (nat * shape)) : {a = b} + {a <> b}.
Proof. apply list_eq_dec. decide equality; [apply shape_dec|apply Nat.eq_dec]. Defined.
(** Some vector or matrix holds a reference to [q]. *)
Definition holds_b (e : list (nat * cobj)) (q : nat) : bool :=
  existsb (fun nx => match snd nx with CPlan _ => false | x => existsb (Nat.eqb q) (obj_refs x) end) e.
Lemma holds_b_ok e q : holds_b e q = true -> In q (env_refs e).
Proof.
  intros H. apply existsb_exists in H. destruct H as ([n x] & Hx & H). cbn [snd] in H.
  apply in_flat_map. exists (n, x). split; [auto|]. cbn [snd].
  assert (E : existsb (Nat.eqb q) (obj_refs x) = true) by (destruct x; auto; discriminate).
  apply existsb_exists in E. destruct E as (y & Hy & Ey). apply Nat.eqb_eq in Ey. subst. auto.
Qed.
Lemma holds_b_set n p p0 e q : lookup n e = Some (CPlan p0) -> holds_b (set n (CPlan p) e) q = holds_b e q.
Proof.
  intros H. destruct (lookup_split _ _ H) as (e1 & e2 & -> & _ & ->). unfold holds_b.
  rewrite !existsb_app. reflexivity.
Qed.
Definition check (h : list action) (n : nat) (user lost : list nat) (sh : list (nat * shape)) (ks : list (nat * okind))
    (held : list nat) : bool :=
  legal_historyb client_init h && runs h &&
  (let c := result client_init h in
   readyb c n && same nats_dec (c_user c) user && same nats_dec (c_lost c) lost && same shapes_dec (shapes (c_env c)) sh
   && kinds_are c ks && forallb (holds_b (c_env c)) held).

Lemma check_ok h n user lost sh ks held : check h n user lost sh ks held = true ->
  exists c p, reaches client_init h c /\ ready c n p /\ c_user c = user /\ c_lost c = lost /\ shapes (c_env c) = sh /\
  (forall o k, In (o, k) ks -> l_kind (c_rt c) o = k /\ o < l_next (c_rt c)) /\
  (forall q, In q held -> holds_b (c_env c) q = true).
Proof.
  unfold check. cbn zeta. rewrite !andb_true_iff. intros [[L R] [[[[[A B] C] D] F] G]].
  unfold runs in R. destruct (run_history client_init h) as [c| |] eqn:e; try discriminate.
  assert (result client_init h = c) as E by (unfold result; rewrite e; reflexivity). rewrite E in *.
  unfold readyb in A. destruct (lookup n (c_env c)) as [[v|m|p]|] eqn:Hp; try discriminate.
  exists c, p. split; [split; [apply legal_historyb_ok, L|exact e]|]. split.
  { rewrite !andb_true_iff in A. destruct A as [[[[A1 A2] A3] A4] A5]. split; [auto|].
    destruct (p_wfields p); [discriminate|]. destruct (p_wregions p); [|discriminate].
    destruct (p_wparts p); [|discriminate]. destruct (p_work p); [|discriminate]. apply Nat.eqb_eq in A5. auto 10. }
  apply same_eq in B, C, D. split; [auto|]. split; [auto|]. split; [auto|].
  split; [|apply forallb_forall, G]. intros o k Hk. unfold kinds_are in F. rewrite forallb_forall in F. specialize (F _ Hk). cbn [fst snd] in F.
  apply andb_true_iff in F. destruct F as [F1 F2]. apply same_eq in F1. apply Nat.ltb_lt in F2. auto.
Qed.
Lemma shapes_nil e : shapes e = [] -> e = [].
Proof. destruct e; [auto|discriminate]. Qed.
Lemma shapes_vec e n s : shapes e = (n, SVec) :: s -> exists v e', e = (n, CVec v) :: e' /\ shapes e' = s.
Proof. destruct e as [|[k [v|m|p]] e]; try discriminate. intros H. injection H as -> <-. eauto. Qed.
Lemma shapes_mat e n s : shapes e = (n, SMat) :: s -> exists v e', e = (n, CMat v) :: e' /\ shapes e' = s.
Proof. destruct e as [|[k [v|m|p]] e]; try discriminate. intros H. injection H as -> <-. eauto. Qed.
Lemma shapes_plan e n s : shapes e = (n, SPlan) :: s -> exists v e', e = (n, CPlan v) :: e' /\ shapes e' = s.
Proof. destruct e as [|[k [v|m|p]] e]; try discriminate. intros H. injection H as -> <-. eauto. Qed.
Lemma shapes_set n p p0 e : lookup n e = Some (CPlan p0) -> shapes (set n (CPlan p) e) = shapes e.
Proof.
  intros H. destruct (lookup_split _ _ H) as (e1 & e2 & -> & _ & ->). unfold shapes. rewrite !map_app. reflexivity.
Qed.
Ltac open_env := repeat match goal with
  | H : shapes ?e = (_, SVec) :: _ |- _ => apply shapes_vec in H; destruct H as (? & ? & -> & H)
  | H : shapes ?e = (_, SMat) :: _ |- _ => apply shapes_mat in H; destruct H as (? & ? & -> & H)
  | H : shapes ?e = (_, SPlan) :: _ |- _ => apply shapes_plan in H; destruct H as (? & ? & -> & H)
  | H : shapes ?e = [] |- _ => apply shapes_nil in H; subst e
  end.

(** With the workspace or without it (the solver that was asked for does not exist). *)
Lemma with_solver h n user lost sh ks held (w : list action) :
  check h n user lost sh ks held = true -> (w = [] \/ exists g k, w = [AAlloc g n k]) ->
  exists c, reaches client_init (h ++ w) c /\ c_user c = user /\ c_lost c = lost /\ shapes (c_env c) = sh /\
  (forall o k, In (o, k) ks -> l_kind (c_rt c) o = k) /\
  (forall q, In q held -> In q (env_refs (c_env c))).
Proof.
  intros CH W. destruct (check_ok _ _ _ _ _ _ _ CH) as (c & p & R & RD & EU & EL & ES & K & HB).
  destruct W as [->|(g & k & ->)].
  - exists c. rewrite app_nil_r. do 4 (split; [auto|]). split; [intros o k Hk; apply K, Hk|].
    intros q Hq. apply holds_b_ok, HB, Hq.
  - destruct (ready_alloc g k R RD) as (c' & p' & R' & E1 & E2 & E3 & E4).
    exists c'. rewrite E1, E2, E3. split; [exact R'|]. do 2 (split; [auto|]). split.
    + rewrite (@shapes_set n p' p) by apply RD. exact ES.
    + split.
      * intros o k' Hk. destruct (K _ _ Hk) as [K1 K2]. rewrite E4; auto.
      * intros q Hq. apply holds_b_ok. rewrite (@holds_b_set n p' p) by apply RD. auto.
Qed.

(** Not a matrix, or no planner left that could point to it. *)
Ltac no_planner :=
  let k := fresh in let p := fresh in let H := fresh in
  intros ? _ k p H; cbn in H; repeat (destruct H as [H|H]; [discriminate|]); destruct H.
Lemma lg_drop_part kind lost o q k user env t : kind o = OPart q k -> In o user ->
  In q (remove_one o user) \/ In q (env_refs env) \/ In q lost ->
  lets_go kind lost (remove_one o user) env t -> lets_go kind lost user env (ADropPartition o :: t).
Proof.
  intros K H1 H2 H3. replace (ADropPartition o) with (drop_of (kind o) o) by (rewrite K; reflexivity).
  apply lg_drop; auto. intros q' k' K'. rewrite K in K'. injection K' as <- <-. auto.
Qed.
Lemma lg_drop_space kind lost o user env t : kind o = OSpace -> In o user ->
  lets_go kind lost (remove_one o user) env t -> lets_go kind lost user env (ADropSpace o :: t).
Proof.
  intros K H1 H3. replace (ADropSpace o) with (drop_of (kind o) o) by (rewrite K; reflexivity).
  apply lg_drop; auto. rewrite K. discriminate.
Qed.
Ltac at_hand := cbn; auto 20.
Ltac let_go K := repeat first
  [ apply lg_done
  | eapply lg_delete; [cbn; reflexivity | first [let E := fresh in intros ? E; discriminate E|no_planner] | cbn [unset Nat.eqb]]
  | eapply lg_drop_part; [apply K; at_hand | at_hand | | cbn [remove_one Nat.eqb]]
  | apply lg_drop_space; [apply K; at_hand | at_hand | cbn [remove_one Nat.eqb]] ].

Lemma nothing_left h c : reaches client_init h c -> (forall a, In a h -> leaky a = false) ->
  forall t, lets_go (l_kind (c_rt c)) [] (c_user c) (c_env c) t -> 
  exists c', reaches client_init (h ++ t) c' /\ c_env c' = [] /\ c_user c' = [] /\ forall o, ~ alive (c_rt c') o.
Proof.
  intros R NL t L. assert (EL : c_lost c = []).
  { rewrite (proj2 (reaches_lost h _ (proj2 R))); [reflexivity|].
    apply forallb_forall. intros a Ha. rewrite NL; auto. }
  rewrite <- EL in L. destruct (C96_scope_exit R L) as (c' & R' & E1 & E2 & _ & E3). rewrite EL in E3.
  exists c'. split; [exact R'|]. split; [auto|]. split; [auto|]. intros o H. apply H. rewrite E3.
  destruct (l_kind (c_rt c') o); reflexivity.
Qed.

Theorem C96_test05 : forall g1 g2 gw, exists c, reaches client_init (test05_handles g1 g2 gw) c /\ c_env c = [] /\ c_user c = [] /\
  forall o, ~ alive (c_rt c) o.
Proof.
  intros g1 g2 gw.
  assert (CH : check (test05_setup g1 g2) 3 [2; 1; 0] [] [(3, SPlan); (2, SVec); (1, SVec); (0, SMat)]
      [(0, OSpace); (1, OSpace); (2, OPart 0 1)] [] = true) by (destruct g1, g2; vm_compute; reflexivity).
  destruct (@with_solver _ _ _ _ _ _ _ [AAlloc gw 3 3] CH) as (c & R & EU & EL & ES & K & _); [eauto|].
  unfold test05_handles. rewrite app_assoc. apply (nothing_left R).
  { intros a Ha. cbn in Ha. repeat (destruct Ha as [<-|Ha]; [reflexivity|]). destruct Ha. }
  rewrite EU. remember (c_env c) as e. clear Heqe. open_env. unfold test05_teardown. let_go K. cbn. auto.
Qed.

Theorem C96_test06 : forall g1 g2 gw, exists c, reaches client_init (test06_handles g1 g2 gw) c /\ c_env c = [] /\ c_user c = [] /\
  forall o, ~ alive (c_rt c) o.
Proof.
  intros g1 g2 gw.
  assert (CH : check (test06_setup g1 g2) 3 [9; 0] [] [(3, SPlan); (2, SVec); (1, SVec); (0, SMat)]
      [(0, OSpace); (9, OPart 5 0)] [5] = true) by (destruct g1, g2; vm_compute; reflexivity).
  destruct (@with_solver _ _ _ _ _ _ _ [AAlloc gw 3 3] CH) as (c & R & EU & EL & ES & K & H5); [eauto|].
  unfold test06_handles. rewrite app_assoc. apply (nothing_left R).
  { intros a Ha. cbn in Ha. repeat (destruct Ha as [<-|Ha]; [reflexivity|]). destruct Ha. }
  specialize (H5 5 (or_introl eq_refl)).
  rewrite EU. remember (c_env c) as e. clear Heqe. open_env. unfold test06_teardown. let_go K. auto.
Qed.

(** The benchmark: whatever -solver says, whether or not the matrix was copied on its way out of
    get_laplacian_matrix, exactly the nine objects that create_csr_stencil_matrix forgets (C49) remain,
    with one owner each. *)
Theorem C96_benchmark : forall copied g1 g2 g3 g4 solver gw,
  exists c, reaches client_init (benchmark_handles copied g1 g2 g3 g4 solver gw) c /\ c_env c = [] /\ c_user c = [] /\
  (forall o, l_refs (c_rt c) o = if o <? 9 then 1 else 0) /\
  map (l_kind (c_rt c)) [0; 1; 2; 3; 4; 5; 6; 7; 8] =
    [OSpace; OSpace; OFields; OFields; ORegion 0 2; ORegion 1 3; OSpace; OPart 0 6; OPart 1 6].
Proof.
  intros copied g1 g2 g3 g4 solver gw.
  set (ks := [(9, OSpace); (10, OPart 1 9); (0, OSpace); (1, OSpace); (2, OFields); (3, OFields); (4, ORegion 0 2);
              (5, ORegion 1 3); (6, OSpace); (7, OPart 0 6); (8, OPart 1 6)]).
  set (m := if copied then 1 else 0).
  assert (CH : check (benchmark_setup copied g1 g2 g3 g4) (m + 5) [10; 9] [0; 1; 2; 3; 4; 5; 6; 7; 8]
      [(m + 5, SPlan); (m + 4, SVec); (m + 3, SVec); (m + 2, SVec); (m + 1, SVec); (m, SMat)] ks [] = true)
    by (unfold m, ks; destruct copied, g1, g2, g3, g4; vm_compute; reflexivity).
  destruct (@with_solver _ _ _ _ _ _ _ (benchmark_solver solver gw (m + 5)) CH) as (c & R & EU & EL & ES & K & _).
  { unfold benchmark_solver. destruct (solver =? 1)%Z; [eauto|]. destruct (solver =? 2)%Z; [eauto|].
    destruct (solver =? 3)%Z; eauto. }
  assert (L : lets_go (l_kind (c_rt c)) (c_lost c) (c_user c) (c_env c) (benchmark_teardown copied)).
  { rewrite EU, EL. remember (c_env c) as e. clear Heqe. unfold m in ES. destruct copied; cbn [Nat.add] in ES;
      open_env; unfold benchmark_teardown; cbn [Nat.add]; let_go K; cbn; auto 10. }
  destruct (C96_scope_exit R L) as (c' & R' & E1 & E2 & KX & E3). exists c'.
  split; [unfold benchmark_handles; rewrite app_assoc; exact R'|]. split; [auto|]. split; [auto|].
  assert (KK : forall o k, In (o, k) ks -> In o (c_lost c) -> l_kind (c_rt c') o = k).
  { intros o k Hk Ho. rewrite <- (K _ _ Hk). apply KX. apply ok_owned; [eapply ok_start; exact R|].
    unfold owners. rewrite cnt_In in Ho. lia. }
  rewrite EL in KK. split.
  - intros o. rewrite E3, EL. destruct (Nat.ltb_spec o 9) as [lt|ge].
    + do 9 (destruct o as [|o]; [erewrite KK by (unfold ks; at_hand); reflexivity|]). lia.
    + rewrite (proj1 (count_occ_not_In Nat.eq_dec _ _)) by (cbn; lia).
      destruct (l_kind (c_rt c') o); auto. destruct (existsb _ _); reflexivity.
  - cbn [map]. repeat (erewrite KK by (unfold ks; at_hand)). reflexivity.
Qed.

(** The order of the last lines matters.  Test04's range partition is a partition of a space that only
    the matrix owns: destroying it after the matrix would be an illegal call. *)
Example C96_order_matters : run_history client_init
  [ ASpace; ALaplacianCsr 0; APartition 5 0; ADelete 0; ADropPartition 9; ADropSpace 0 ] = CIllegal
  /\ exists c, run_history client_init
  [ ASpace; ALaplacianCsr 0; APartition 5 0; ADropPartition 9; ADelete 0; ADropSpace 0 ] = COk c /\ forall o, ~ alive (c_rt c) o.
Proof.
  split; [vm_compute; reflexivity|].
  eexists. assert (R : reaches client_init [ ASpace; ALaplacianCsr 0; APartition 5 0; ADropPartition 9; ADelete 0; ADropSpace 0 ] _)
    by (apply reaches_prefix; vm_compute; reflexivity).
  split; [exact (proj2 R)|].
  apply (C19_all_released R); try reflexivity.
  intros a Ha. cbn in Ha. repeat (destruct Ha as [<-|Ha]; [reflexivity|]). destruct Ha.
Qed.
(** In test05 the program gives back the partition and the spaces while the vectors, the matrix and the
    planner still use them: at that point all three are alive, with the owners the objects registered. *)
Example C96_test05_shared : exists c, reaches client_init
    (test05_setup false false ++ [AAlloc (fun _ _ => false) 3 3; ADropPartition 2; ADropSpace 0; ADropSpace 1]) c /\
  c_user c = [] /\ map (l_refs (c_rt c)) [0; 1; 2] = [8; 7; 8].
Proof. eexists. split; [apply reaches_prefix; vm_compute; reflexivity|]. split; vm_compute; reflexivity. Qed.
