(** OwnershipExample: a concrete correct program that uses every class, and concrete incorrect ones. *)
Require Import List Arith Bool Lia.
From Verif Require Import Ownership OwnershipSpec OwnershipFacts PropsOwnership PropsLeaks.
Import ListNotations.
Set Implicit Arguments.

(** The client of a small solve: one index space with one partition, x and b, a copy of x, a matrix,
    a planner with a workspace, and a derived partition. *)
Definition setup : list action :=
  [ ASpace;                        (* 0: index space *)
    ASpace;                        (* 1: colour space *)
    APartition 0 1;                (* 2: partition *)
    AVec 2;                        (* object 0: x  (field space 3, region 4) *)
    AVec 2;                        (* object 1: b  (field space 5, region 6) *)
    AVecCopy 0;                    (* object 2 *)
    ASpace;                        (* 7: kernel space *)
    AFields;                       (* 8 *)
    ARegion 7 8;                   (* 9 *)
    ACoo (Region 9 7 8);           (* object 3: A *)
    APlanner;                      (* object 4 *)
    AAddSol true 4 0; AAddRhs false 4 1;
    AAddMat 4 3 0 0;               (* kernel partition 10, ghost partition 11 *)
    AAlloc (fun _ _ => true) 4 2   (* workspace field space 12, region 13 *)
  ].
Definition release : list action :=
  [ ADelete 4; ADelete 3; ADelete 2; ADelete 1; ADelete 0;
    ADropRegion (Region 9 7 8); ADropFields 8; ADropSpace 7; ADropPartition 2; ADropSpace 1; ADropSpace 0 ].

Definition result (c : client) (h : list action) : client :=
  match run_history c h with COk c' => c' | _ => c end.
Definition c_setup : client := Eval vm_compute in result client_init setup.

(** A decision procedure for [legal], to check concrete programs by computation. *)
Definition is_space (s : lstate) (o : nat) : bool := aliveb s o && match l_kind s o with OSpace => true | _ => false end.
Definition is_fields (s : lstate) (o : nat) : bool := aliveb s o && match l_kind s o with OFields => true | _ => false end.
Definition is_region (s : lstate) (r : region) : bool :=
  aliveb s (rg_id r) && match l_kind s (rg_id r) with ORegion a b => (a =? rg_is r) && (b =? rg_fs r) | _ => false end.
Definition is_part (s : lstate) (o : nat) : bool := aliveb s o && match l_kind s o with OPart _ _ => true | _ => false end.
Definition is_live_region (s : lstate) (r : region) : bool := is_region s r && is_space s (rg_is r) && is_fields s (rg_fs r).
Definition is_live_part (s : lstate) (o : nat) : bool := aliveb s o && match l_kind s o with OPart _ k => is_space s k | _ => false end.
Definition inb (o : nat) (l : list nat) : bool := existsb (Nat.eqb o) l.
Definition isvec (c : client) n := match lookup n (c_env c) with Some (CVec _) => true | _ => false end.
Definition ismat (c : client) n := match lookup n (c_env c) with Some (CMat _) => true | _ => false end.
Definition isplan (c : client) n := match lookup n (c_env c) with Some (CPlan _) => true | _ => false end.
Definition legalb (c : client) (a : action) : bool :=
  let s := c_rt c in
  match a with
  | ASpace | AFields | APlanner | AStencilCoo | AStencilCsr => true
  | ARegion is fs => is_space s is && is_fields s fs
  | APartition q k => is_space s q && is_space s k
  | AShare o => aliveb s o
  | ADropSpace o => inb o (c_user c) && is_space s o
  | ADropFields o => inb o (c_user c) && is_fields s o
  | ADropRegion r => inb (rg_id r) (c_user c) && is_region s r
  | ADropPartition o => inb o (c_user c) && is_part s o
  | AVec p => is_live_part s p
  | AVecLogical r p => is_live_region s r && is_live_part s p && match l_kind s p with OPart q _ => q =? rg_is r | _ => false end
  | AVecCopy n => isvec c n
  | ACoo k => is_live_region s k
  | ACsr k r => is_live_region s k && is_live_region s r
  | AMatCopy n => ismat c n
  | AAddSol _ p v | AAddRhs _ p v => isplan c p && isvec c v
  | AAlloc _ p _ => isplan c p
  | AAddMat p m _ _ => isplan c p && ismat c m
  | ADelete n => match lookup n (c_env c) with
      | Some (CMat _) => forallb (fun kx => match snd kx with CPlan p => forallb (fun e => negb (pm_mat e =? n)) (p_mats p) | _ => true end) (c_env c)
      | Some _ => true
      | None => false
      end
  | ADomainFromRange m ds rp => ismat c m && is_space s ds && is_live_part s rp
  | ARangeFromDomain m rs dp => ismat c m && is_space s rs && is_live_part s dp
  | ALaplacianCoo ls | ALaplacianCsr ls => is_space s ls
  | APrint p => is_live_part s p
  | AKernelFromRange m p | AKernelFromDomain m p => ismat c m && is_live_part s p
  | ADomainFromKernel m sp p | ARangeFromKernel m sp p => ismat c m && is_space s sp && is_live_part s p
  end.

Lemma is_space_ok s o : is_space s o = true -> live_space s o.
Proof. unfold is_space, live_space. rewrite andb_true_iff, aliveb_true. intros [A B]. destruct (l_kind s o); try discriminate; auto. Qed.
Lemma is_fields_ok s o : is_fields s o = true -> alive s o /\ l_kind s o = OFields.
Proof. unfold is_fields. rewrite andb_true_iff, aliveb_true. intros [A B]. destruct (l_kind s o); try discriminate; auto. Qed.
Lemma is_region_ok s r : is_region s r = true -> alive s (rg_id r) /\ l_kind s (rg_id r) = ORegion (rg_is r) (rg_fs r).
Proof.
  unfold is_region. rewrite andb_true_iff, aliveb_true. intros [A B]. split; [auto|].
  destruct (l_kind s (rg_id r)); try discriminate. apply andb_true_iff in B. rewrite !Nat.eqb_eq in B. destruct B; congruence.
Qed.
Lemma is_part_ok s o : is_part s o = true -> alive s o /\ exists q k, l_kind s o = OPart q k.
Proof. unfold is_part. rewrite andb_true_iff, aliveb_true. intros [A B]. destruct (l_kind s o); try discriminate; eauto. Qed.
Lemma is_live_region_ok s r : is_live_region s r = true -> live_region s r.
Proof.
  unfold is_live_region. rewrite !andb_true_iff. intros [[A B] C]. apply is_region_ok in A. apply is_space_ok in B.
  apply is_fields_ok in C. unfold live_region, live_space in *. tauto.
Qed.
Lemma is_live_part_ok s o : is_live_part s o = true -> live_partition s o.
Proof.
  unfold is_live_part. rewrite andb_true_iff, aliveb_true. intros [A B]. split; [auto|].
  destruct (l_kind s o); try discriminate. apply is_space_ok in B. unfold live_space in B. eauto.
Qed.
Lemma inb_ok o l : inb o l = true -> In o l.
Proof. unfold inb. rewrite existsb_exists. intros (x & H & E). apply Nat.eqb_eq in E. subst. auto. Qed.
Lemma isvec_ok c n : isvec c n = true -> bound_vec c n.
Proof. unfold isvec, bound_vec. destruct (lookup n (c_env c)) as [[]|]; try discriminate; eauto. Qed.
Lemma ismat_ok c n : ismat c n = true -> bound_mat c n.
Proof. unfold ismat, bound_mat. destruct (lookup n (c_env c)) as [[]|]; try discriminate; eauto. Qed.
Lemma isplan_ok c n : isplan c n = true -> bound_plan c n.
Proof. unfold isplan, bound_plan. destruct (lookup n (c_env c)) as [[]|]; try discriminate; eauto. Qed.

Lemma legalb_ok c a : legalb c a = true -> legal c a.
Proof.
  destruct a; cbn [legalb legal]; rewrite ?andb_true_iff; intros H; auto;
    repeat match goal with H : _ /\ _ |- _ => destruct H end;
    repeat match goal with
      | H : is_space _ _ = true |- _ => apply is_space_ok in H
      | H : is_fields _ _ = true |- _ => apply is_fields_ok in H
      | H : is_region _ _ = true |- _ => apply is_region_ok in H
      | H : is_part _ _ = true |- _ => apply is_part_ok in H
      | H : is_live_region _ _ = true |- _ => apply is_live_region_ok in H
      | H : is_live_part _ _ = true |- _ => apply is_live_part_ok in H
      | H : inb _ _ = true |- _ => apply inb_ok in H
      | H : isvec _ _ = true |- _ => apply isvec_ok in H
      | H : ismat _ _ = true |- _ => apply ismat_ok in H
      | H : isplan _ _ = true |- _ => apply isplan_ok in H
      | H : aliveb _ _ = true |- _ => apply aliveb_true in H
      end; auto.
  - (* AVecLogical *) split; [auto|]. split; [auto|]. destruct (l_kind (c_rt c) p); try discriminate. apply Nat.eqb_eq in H0. subst. eauto.
  - (* ADelete *) destruct (lookup x (c_env c)) as [y|]; [|discriminate]. exists y. split; [auto|]. intros m -> k p Hk (e & He & En).
    rewrite forallb_forall in H. specialize (H _ Hk). cbn in H. rewrite forallb_forall in H. specialize (H _ He).
    rewrite En, Nat.eqb_refl in H. discriminate.
Qed.
Fixpoint legal_historyb (c : client) (h : list action) : bool :=
  match h with
  | [] => true
  | a :: h' => legalb c a && match step c a with COk c' => legal_historyb c' h' | _ => true end
  end.
Lemma legal_historyb_ok h : forall c, legal_historyb c h = true -> legal_history c h.
Proof.
  induction h as [|a h IH]; cbn [legal_historyb legal_history]; intros c H; [auto|].
  apply andb_true_iff in H. destruct H as [H1 H2]. split; [apply legalb_ok, H1|]. intros c' e. rewrite e in H2. auto.
Qed.

(** The example program is correct and runs to the end ... *)
Example setup_reaches : reaches client_init setup c_setup.
Proof. split; [apply legal_historyb_ok; vm_compute; reflexivity|vm_compute; reflexivity]. Qed.
Example release_reaches : exists c, reaches c_setup release c /\ c_env c = [] /\ c_user c = [].
Proof.
  eexists. split; [split; [apply legal_historyb_ok; vm_compute; reflexivity|vm_compute; reflexivity]|]. split; reflexivity.
Qed.
(** ... and releases everything, as C19_all_released says. *)
Example all_released_instance : exists c, reaches client_init (setup ++ release) c /\ forall o, ~ alive (c_rt c) o.
Proof.
  destruct release_reaches as (c & R & E & U). exists c. pose proof (reaches_app setup_reaches R) as RR. split; [exact RR|].
  apply (C19_all_released RR); auto.
  intros a Ha. vm_compute in Ha. repeat (destruct Ha as [<-|Ha]; [reflexivity|]). destruct Ha.
Qed.

(** Destroying the matrix before the planner, after the client dropped its own references (C19). *)
Definition no_own : list action := [ADropRegion (Region 9 7 8); ADropFields 8; ADropSpace 7].
Example matrix_first_illegal : run_history client_init (setup ++ no_own ++ [ADelete 3; ADelete 4]) = CIllegal.
Proof. vm_compute. reflexivity. Qed.
Example matrix_first_instance : exists c m p, reaches client_init (setup ++ no_own) c /\
  lookup 3 (c_env c) = Some (CMat m) /\ lookup 4 (c_env c) = Some (CPlan p) /\ points_to p 3 /\
  (forall o, o = rg_is (kernel_region m) -> owners c o = cnt (mat_refs m) o).
Proof.
  eexists. eexists. eexists. split; [split; [apply legal_historyb_ok; vm_compute; reflexivity|vm_compute; reflexivity]|].
  split; [vm_compute; reflexivity|]. split; [vm_compute; reflexivity|]. split.
  - eexists. split; [left; reflexivity|reflexivity].
  - intros o ->. vm_compute. reflexivity.
Qed.

(** The derived-partition helper and the stencil builders in the same program (C15, C49). *)
Example domain_from_range_instance : exists c', legal c_setup (ADomainFromRange 3 0 2) /\
  step c_setup (ADomainFromRange 3 0 2) = COk c' /\ c_lost c' = [14] /\ c_user c' = 15 :: c_user c_setup.
Proof.
  eexists. split; [apply legalb_ok; vm_compute; reflexivity|]. split; [vm_compute; reflexivity|]. split; reflexivity.
Qed.

(** A planner with a workspace: copying it and destroying both is illegal (C60). *)
Example copied_planner_instance : exists p, lookup 4 (c_env c_setup) = Some (CPlan p) /\
  In 12 (planner_own_refs p) /\ owners c_setup 12 = cnt (planner_refs p) 12 /\
  (forall q k, l_kind (c_rt c_setup) 12 <> OPart q k).
Proof.
  eexists. split; [vm_compute; reflexivity|]. split; [vm_compute; auto 10|]. split; [vm_compute; reflexivity|].
  intros q k. vm_compute. discriminate.
Qed.
Example laplacian_instance : exists c', legal c_setup (ALaplacianCsr 1) /\ step c_setup (ALaplacianCsr 1) = COk c' /\
  leaks c_setup c' [].
Proof.
  eexists. assert (L : legal c_setup (ALaplacianCsr 1)) by (apply legalb_ok; vm_compute; reflexivity).
  split; [exact L|]. split; [vm_compute; reflexivity|].
  eapply (C19_laplacian_balanced setup_reaches); [right; reflexivity|exact L|vm_compute; reflexivity].
Qed.
