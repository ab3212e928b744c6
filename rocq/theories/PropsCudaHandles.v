(** PropsCudaHandles: property C73: library handles per GPU. *)
From Verif Require Import Base Outcome CudaHandles.
Set Implicit Arguments.
Local Open Scope Z_scope.

(** two processors use the same slot of the table *)
Definition same_slot (bits : nat) (p q : processor) : Prop := proc_id p mod 2 ^ Z.of_nat bits = proc_id q mod 2 ^ Z.of_nat bits.
Definition library_eqb (a b : library) : bool := match a, b with CUBLAS, CUBLAS | CUSPARSE, CUSPARSE => true | _, _ => false end.
(** the first call of the history for this library on this slot *)
Definition first_user (bits : nat) (cs : list (processor * library)) (p : processor) (l : library) : option processor :=
  option_map fst (find (fun c => (proc_id (fst c) mod 2 ^ Z.of_nat bits =? proc_id p mod 2 ^ Z.of_nat bits) && library_eqb (snd c) l) cs).

Section Proofs.
Variable bits : nat.
Lemma slot_index p : proc_kind_of p = TOC_PROC -> library_context bits p = Ok (proc_id p mod 2 ^ Z.of_nat bits).
Proof.
  intros H. unfold library_context. rewrite H. cbv zeta. assert (E : Z.land (proc_id p) (max_procs bits - 1) = proc_id p mod 2 ^ Z.of_nat bits).
  { rewrite <- Z.land_ones by lia. rewrite Z.ones_equiv. reflexivity. }
  rewrite E. assert (B := Z.mod_pos_bound (proc_id p) (2 ^ Z.of_nat bits) ltac:(apply Z.pow_pos_nonneg; lia)). unfold max_procs.
  destruct (Z.leb_spec 0 (proc_id p mod 2 ^ Z.of_nat bits)); [|lia]. destruct (Z.ltb_spec (proc_id p mod 2 ^ Z.of_nat bits) (2 ^ Z.of_nat bits)); [reflexivity|lia].
Qed.
Lemma field_set l l' c h : field l (set_field l' c h) = if library_eqb l' l then Some h else field l c.
Proof. destruct l, l'; reflexivity. Qed.
Lemma library_eqb_iff a b : library_eqb a b = true <-> a = b.
Proof. destruct a, b; cbn; split; congruence. Qed.

(** [cs]: the calls made so far; [s]: the state; handles in the table were created by the first user of their slot *)
Definition good (cs : list (processor * library)) (s : cuda_state) : Prop :=
  (forall p l, match first_user bits cs p l, field l (table s (proc_id p mod 2 ^ Z.of_nat bits)) with
               | Some q, Some h => device h = proc_id q
               | None, None => True
               | _, _ => False
               end) /\
  (forall i l h, field l (table s i) = Some h -> (serial h < created s)%nat) /\
  (forall i j l l' h h', field l (table s i) = Some h -> field l' (table s j) = Some h' -> serial h = serial h' -> i = j /\ l = l').
Lemma find_app X (f : X -> bool) l x : find f (l ++ [x]) = match find f l with Some y => Some y | None => if f x then Some x else None end.
Proof. induction l as [|y l IH]; cbn; [reflexivity|]. destruct (f y); [reflexivity|exact IH]. Qed.
Lemma first_user_app cs p l q l' : first_user bits (cs ++ [(q, l')]) p l =
  match first_user bits cs p l with Some y => Some y | None => if (proc_id q mod 2 ^ Z.of_nat bits =? proc_id p mod 2 ^ Z.of_nat bits) && library_eqb l' l then Some q else None end.
Proof. unfold first_user. rewrite find_app. destruct (find _ cs); [reflexivity|]. cbn [fst snd]. destruct (_ && _); reflexivity. Qed.
Lemma get_handle_step cs s p l : good cs s -> proc_kind_of p = TOC_PROC -> exists h s', get_handle bits p l s = Ok (h, s') /\ good (cs ++ [(p, l)]) s' /\
  field l (table s' (proc_id p mod 2 ^ Z.of_nat bits)) = Some h /\
  (forall i k g, field k (table s i) = Some g -> field k (table s' i) = Some g) /\
  (field l (table s (proc_id p mod 2 ^ Z.of_nat bits)) = None -> s' = mk_cuda (table s') (S (created s))) /\ (field l (table s (proc_id p mod 2 ^ Z.of_nat bits)) <> None -> s' = s).
Proof.
  intros (G1 & G2 & G3) Hp. unfold get_handle. rewrite (slot_index _ Hp). cbn [obind]. set (i := proc_id p mod 2 ^ Z.of_nat bits).
  destruct (field l (table s i)) as [h|] eqn:E.
  - exists h, s. split; [reflexivity|]. split; [|split; [exact E|split; [auto|split; [discriminate|reflexivity]]]]. split; [|split; assumption].
    intros q k. specialize (G1 q k). rewrite first_user_app. destruct (first_user bits cs q k); [exact G1|].
    destruct (Z.eqb_spec (proc_id p mod 2 ^ Z.of_nat bits) (proc_id q mod 2 ^ Z.of_nat bits)) as [Es|]; [|exact G1]. destruct (library_eqb l k) eqn:El; [|exact G1].
    apply library_eqb_iff in El. subst k. rewrite <- Es in G1. fold i in G1. rewrite E in G1. contradiction.
  - set (h := mk_handle (created s) (proc_id p)).
    assert (F : forall j k, field k (if j =? i then set_field l (table s i) h else table s j) = if (j =? i) && library_eqb l k then Some h else field k (table s j)).
    { intros j k. destruct (Z.eqb_spec j i) as [->|]; [|reflexivity]. rewrite field_set. reflexivity. }
    eexists h, _. split; [reflexivity|]. cbn [table created]. split; [|split; [|split; [|split]]].
    + split; [|split]; cbn [table created].
      * intros q k. specialize (G1 q k). rewrite F, first_user_app. fold i.
        destruct (first_user bits cs q k) as [y|] eqn:Ey.
        -- destruct (Z.eqb_spec (proc_id q mod 2 ^ Z.of_nat bits) i) as [Eq|]; [|exact G1]. destruct (library_eqb l k) eqn:El; [|exact G1].
           apply library_eqb_iff in El. subst k. rewrite Eq, E in G1. contradiction.
        -- rewrite (Z.eqb_sym (proc_id q mod 2 ^ Z.of_nat bits) i). destruct (Z.eqb_spec i (proc_id q mod 2 ^ Z.of_nat bits)) as [Eq|]; [|exact G1]. destruct (library_eqb l k) eqn:El; [|exact G1]. reflexivity.
      * intros j k g. rewrite F. destruct ((j =? i) && library_eqb l k); [intros H; injection H as <-; cbn; lia|]. intros H. apply G2 in H. lia.
      * intros j j' k k' g g'. rewrite !F. destruct ((j =? i) && library_eqb l k) eqn:E1; destruct ((j' =? i) && library_eqb l k') eqn:E2; intros H1 H2 Hs.
        -- apply andb_true_iff in E1, E2. destruct E1 as [E1 E1'], E2 as [E2 E2']. apply Z.eqb_eq in E1, E2. apply library_eqb_iff in E1', E2'. split; congruence.
        -- injection H1 as <-. apply G2 in H2. cbn in Hs. lia.
        -- injection H2 as <-. apply G2 in H1. cbn in Hs. lia.
        -- eapply G3; eassumption.
    + rewrite F, Z.eqb_refl. cbn. assert (R : library_eqb l l = true) by (apply library_eqb_iff; reflexivity). rewrite R. reflexivity.
    + intros j k g Hg. rewrite F. destruct (Z.eqb_spec j i) as [->|]; [|exact Hg]. cbn [andb]. destruct (library_eqb l k) eqn:El; [|exact Hg]. apply library_eqb_iff in El. subst k. congruence.
    + reflexivity.
    + congruence.
Qed.
Lemma calls_good cs : forall pre s, good pre s -> (forall p l, In (p, l) cs -> proc_kind_of p = TOC_PROC) ->
  exists hs s', calls bits cs s = Ok (hs, s') /\ good (pre ++ cs) s' /\ length hs = length cs /\
    (forall i k g, field k (table s i) = Some g -> field k (table s' i) = Some g) /\
    (forall n p l h, nth_error cs n = Some (p, l) -> nth_error hs n = Some h -> field l (table s' (proc_id p mod 2 ^ Z.of_nat bits)) = Some h).
Proof.
  induction cs as [|[p l] cs IH]; intros pre s Hg Hk.
  - exists [], s. rewrite app_nil_r. split; [reflexivity|]. split; [exact Hg|]. split; [reflexivity|]. split; [auto|]. intros [|n]; discriminate.
  - destruct (@get_handle_step pre s p l Hg) as (h & s1 & E1 & G1 & F1 & K1 & _); [apply (Hk p l); left; reflexivity|].
    destruct (IH (pre ++ [(p, l)]) s1 G1) as (hs & s2 & E2 & G2 & L2 & K2 & F2); [intros q k Hq; apply (Hk q k); right; exact Hq|].
    exists (h :: hs), s2. cbn [calls]. rewrite E1. cbn [obind]. rewrite E2. cbn [obind]. split; [reflexivity|]. rewrite <- app_assoc in G2. split; [exact G2|]. split; [cbn; congruence|]. split; [auto|].
    intros [|n] q k g Hn Hh; cbn in Hn, Hh; [injection Hn as <- <-; injection Hh as <-; apply K2; exact F1|]. eapply F2; eassumption.
Qed.
Lemma initial_good : good [] initial.
Proof. split; [intros p []; exact I|]. split; intros; destruct l; discriminate. Qed.
End Proofs.

(** ** C73.  In any history of requests by GPU tasks every request is answered; two requests get the same handle exactly when they are for the same library and
    the processor ids agree modulo LEGION_MAX_NUM_PROCS; the handle was created on the processor that asked first for it.  A request from a processor that is not a GPU aborts. *)
Theorem C73_handles : forall (bits : nat) (cs : list (processor * library)),
  (forall p l, In (p, l) cs -> proc_kind_of p = TOC_PROC) ->
  exists hs s, calls bits cs initial = Ok (hs, s) /\ length hs = length cs /\
    (forall n n' p p' l l' h h', nth_error cs n = Some (p, l) -> nth_error cs n' = Some (p', l') -> nth_error hs n = Some h -> nth_error hs n' = Some h' ->
       (h = h' <-> l = l' /\ same_slot bits p p')) /\
    (forall n p l h, nth_error cs n = Some (p, l) -> nth_error hs n = Some h ->
       exists before first after, cs = before ++ (first, l) :: after /\ same_slot bits first p /\ device h = proc_id first /\ (forall q, In (q, l) before -> ~ same_slot bits q p)).
Proof.
  intros bits cs Hk. destruct (@calls_good bits cs [] initial (initial_good bits) Hk) as (hs & s & E & (G1 & G2 & G3) & L & _ & F).
  exists hs, s. split; [exact E|]. split; [exact L|]. split.
  - intros n n' p p' l l' h h' H1 H2 H3 H4. assert (F1 := F n p l h H1 H3). assert (F2 := F n' p' l' h' H2 H4). split.
    + intros <-. destruct (G3 _ _ _ _ _ _ F1 F2 eq_refl). split; assumption.
    + intros [<- Hs]. unfold same_slot in Hs. rewrite <- Hs, F1 in F2. congruence.
  - intros n p l h H1 H3. assert (F1 := F n p l h H1 H3). specialize (G1 p l). rewrite F1 in G1. cbn [app] in G1. unfold first_user in G1.
    destruct (find _ cs) as [[q k]|] eqn:Ef; [|contradiction]. cbn [option_map fst] in G1.
    assert (D : exists before after, cs = before ++ (q, k) :: after /\ (proc_id q mod 2 ^ Z.of_nat bits =? proc_id p mod 2 ^ Z.of_nat bits) && library_eqb k l = true /\
      forall c, In c before -> (proc_id (fst c) mod 2 ^ Z.of_nat bits =? proc_id p mod 2 ^ Z.of_nat bits) && library_eqb (snd c) l = false).
    { clear - Ef. induction cs as [|c cs IH]; [discriminate|]. cbn [find] in Ef. destruct (_ && _) eqn:Ec in Ef.
      - injection Ef as ->. exists [], cs. split; [reflexivity|]. split; [exact Ec|intros c []].
      - destruct (IH Ef) as (b & a & -> & H1 & H2). exists (c :: b), a. split; [reflexivity|]. split; [exact H1|]. intros c' [<-|Hc]; [exact Ec|apply H2; exact Hc]. }
    destruct D as (before & after & -> & Dq & Db). apply andb_true_iff in Dq. destruct Dq as [D1 D2]. apply Z.eqb_eq in D1. apply library_eqb_iff in D2. subst k.
    exists before, q, after. split; [reflexivity|]. split; [exact D1|]. split; [exact G1|]. intros q' Hq Hs. specialize (Db (q', l) Hq). cbn [fst snd] in Db. unfold same_slot in Hs. rewrite Hs, Z.eqb_refl in Db.
    assert (R : library_eqb l l = true) by (apply library_eqb_iff; reflexivity). rewrite R in Db. discriminate.
Qed.
(** so a GPU never uses a handle created on another GPU when the ids of the GPUs are distinct modulo LEGION_MAX_NUM_PROCS ... *)
Theorem C73_own_handles : forall (bits : nat) (cs : list (processor * library)) hs s,
  (forall p l, In (p, l) cs -> proc_kind_of p = TOC_PROC) ->
  (forall p l q k, In (p, l) cs -> In (q, k) cs -> same_slot bits p q -> proc_id p = proc_id q) ->
  calls bits cs initial = Ok (hs, s) -> forall n p l h, nth_error cs n = Some (p, l) -> nth_error hs n = Some h -> device h = proc_id p.
Proof.
  intros bits cs hs s Hk Hd E n p l h H1 H2. destruct (C73_handles bits cs Hk) as (hs' & s' & E' & _ & _ & K). rewrite E in E'. injection E' as <- <-.
  destruct (K n p l h H1 H2) as (before & first & after & Ec & Hs & -> & _). apply (Hd first l p l); [rewrite Ec; apply in_elt|apply nth_error_In in H1; exact H1|exact Hs].
Qed.
(** ... and of two GPUs that share a slot the second one uses the first one's handle. *)
Theorem C73_shared_slot : forall (bits : nat) p q l, proc_kind_of p = TOC_PROC -> proc_kind_of q = TOC_PROC -> same_slot bits p q -> proc_id p <> proc_id q ->
  exists h s, calls bits [(p, l); (q, l)] initial = Ok ([h; h], s) /\ device h = proc_id p /\ device h <> proc_id q.
Proof.
  intros bits p q l Hp Hq Hs Hne. destruct (C73_handles bits [(p, l); (q, l)]) as (hs & s & E & L & K1 & K2).
  { intros r k [H|[H|[]]]; injection H as <- <-; assumption. }
  destruct hs as [|h [|h' [|]]]; try discriminate. assert (Eh : h = h') by (apply (K1 0%nat 1%nat p q l l h h'); auto). subst h'. exists h, s. split; [exact E|].
  destruct (K2 0%nat p l h eq_refl eq_refl) as (before & first & after & Ec & _ & Hd & Hf). destruct before as [|b before].
  - cbn in Ec. injection Ec as <- _. split; [exact Hd|]. rewrite Hd. exact Hne.
  - cbn in Ec. injection Ec as <- Ec. exfalso. apply (Hf p); [left; reflexivity|reflexivity].
Qed.
Theorem C73_only_gpus : forall bits p l cs s, proc_kind_of p = OTHER_PROC -> calls bits ((p, l) :: cs) s = AssertFail.
Proof. intros bits p l cs s H. cbn [calls]. unfold get_handle, library_context. rewrite H. reflexivity. Qed.
(** Realm processor ids 0x1d00000000000002 and ...003 on one node: distinct slots of a table of 1024 *)
Example C73_example : exists hs s, calls 10 [(mk_proc 2089670227099910146 TOC_PROC, CUBLAS); (mk_proc 2089670227099910147 TOC_PROC, CUBLAS); (mk_proc 2089670227099910146 TOC_PROC, CUBLAS)] initial = Ok (hs, s) /\
  map serial hs = [0; 1; 0]%nat.
Proof. eexists _, _. split; reflexivity. Qed.
