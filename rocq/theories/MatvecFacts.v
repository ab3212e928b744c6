(** MatvecFacts: matvec with the partitions the library derives (as SquarePlanner::add_row_partitioned_matrix
    does), and the properties of the derived partitions themselves. *)
From Verif Require Import Base Index Outcome Sched Async Arith Launch Vector PartitionSpec VectorFacts LaunchFacts Matrix MatrixSpec MatrixFacts.
Set Implicit Arguments.

Section Facts.
Variable T : Type.
Variable A : arith T.
Variable lg : legion.
Hypothesis Hlg : legion_ok lg.
Notation run := (run loc_dec).

Lemma kernel_from_range_pieces (m : matrix T) q kps : kernel_from_range lg m q = Ok kps ->
  kps = map (fun piece => filter (kernel_in_piece m piece) (kpts m)) (part_pieces lg q) /\
  match m with COO _ => True | CSR c => part_parent lg q = cs_rows c end.
Proof.
  intros H. split; [apply (@kernel_from_range_ok T lg m q kps H)|]. destruct m as [c|c]; [exact I|]. cbn in H.
  destruct (part_parent lg q =? cs_rows c) eqn:E; [|discriminate]. apply Nat.eqb_eq. exact E.
Qed.

Lemma constructed_parent v : constructed lg v -> part_parent lg (pv_part v) = pv_space v.
Proof.
  intros [q [r [f H]]]. unfold make_vector, oassert in H. destruct (is_disjoint lg q); [|discriminate].
  destruct (is_complete lg q); [|discriminate]. injection H as <-. reflexivity.
Qed.

(** No assertion of the matvec tasks fails with derived partitions, and matvec is accepted whenever dst and src
    are different fields. *)
Theorem matvec_accepts m dst src kps : constructed lg dst ->
  kernel_from_range lg m (pv_part dst) = Ok kps ->
  pv_region dst <> pv_region src \/ pv_fid dst <> pv_fid src ->
  exists ln, matvec A lg m dst src kps (domain_from_kernel lg m (pv_space src) kps) = Ok ln.
Proof.
  intros Hc Hk Hd. destruct (kernel_from_range_pieces _ _ Hk) as [Ek Hrow].
  unfold matvec. assert (L1 : length kps = length (pieces lg dst)) by (rewrite Ek, map_length; reflexivity).
  rewrite domain_from_kernel_eq, map_length, L1, !Nat.eqb_refl.
  replace (match m with COO _ => true | CSR c => part_parent lg (pv_part dst) =? cs_rows c end) with true
    by (destruct m; [reflexivity|rewrite Hrow, Nat.eqb_refl; reflexivity]).
  cbn [andb].
  assert (Hseq : exists tasks, matvec_tasks A lg m dst src kps (map (fun kpiece => filter (fun p => mem p (map (kcol m) kpiece)) (is_points lg (pv_space src))) kps) = Ok tasks).
  { unfold matvec_tasks. rewrite Ek. unfold pieces.
    generalize (part_pieces lg (pv_part dst)) as ps. induction ps as [|piece ps IH]; [exists []; reflexivity|].
    destruct IH as [tasks IH]. cbn [map combine sequence].
    assert (Hone : exists t, match m with COO c => Ok (coo_task A c dst src piece (filter (kernel_in_piece m piece) (kpts m)) (filter (fun p => mem p (map (kcol m) (filter (kernel_in_piece m piece) (kpts m)))) (is_points lg (pv_space src))))
       | CSR c => csr_task A c dst src piece (filter (fun p => mem p (map (kcol m) (filter (kernel_in_piece m piece) (kpts m)))) (is_points lg (pv_space src))) (filter (kernel_in_piece m piece) (kpts m)) end = Ok t).
    { destruct m as [c|c]; [eexists; reflexivity|]. eexists. apply csr_task_entries.
      intros kp Hin. apply filter_In in Hin. destruct Hin as [_ Hin]. cbn in Hin. apply existsb_exists in Hin.
      destruct Hin as [r [Hr Hcr]]. intros E. assert (H := csr_find_row_spec (cs_rowptr c) piece kp). rewrite E in H.
      rewrite (H r Hr) in Hcr. discriminate. }
    destruct Hone as [t Ht]. exists (t :: tasks).
    destruct m as [c|c]; cbv beta iota in Ht |- *; rewrite Ht; cbn [obind]; rewrite IH; reflexivity. }
  destruct Hseq as [tasks ->]. cbn [obind]. unfold submit.
  assert (E : interfering (matvec_reqs lg dst src (map (fun kpiece => filter (fun p => mem p (map (kcol m) kpiece)) (is_points lg (pv_space src))) kps)) = false).
  { cbn. unfold reqs_alias. cbn. destruct Hd as [Hd|Hd].
    - apply Nat.eqb_neq in Hd. rewrite Hd. reflexivity.
    - apply Nat.eqb_neq in Hd. rewrite Hd, andb_false_r. reflexivity. }
  cbn [ln_reqs]. rewrite E. eexists; reflexivity.
Qed.

Theorem matvec_derived_effect m dst src kps ln tr : constructed lg dst -> matrix_ok lg m ->
  kernel_from_range lg m (pv_part dst) = Ok kps ->
  matvec A lg m dst src kps (domain_from_kernel lg m (pv_space src) kps) = Ok ln ->
  interleave (ln_tasks ln) tr -> forall s,
  updates_vector lg dst (fun p => accumulate_row A (fun q => s (at_point src q)) (s (at_point dst p))
                                 (row_triples lg m (is_points lg (pv_space src)) p)) s (run tr s).
Proof.
  intros Hc Hok Hk Hm Hil s. destruct (matvec_effect_general A Hlg _ _ _ _ Hc Hm Hil s) as [U1 U2].
  split; [|exact U2]. intros p Hp. destruct (kernel_from_range_pieces _ _ Hk) as [Ek Hrow].
  destruct (constructed_pieces Hlg Hc) as [Hn Hin]. apply Hin in Hp. apply in_concat in Hp. destruct Hp as [piece [Hpi Hp]].
  apply In_nth_error in Hpi. destruct Hpi as [c Hpi].
  assert (Hkc : nth_error kps c = Some (filter (kernel_in_piece m piece) (kpts m))).
  { rewrite Ek, nth_error_map_some. unfold pieces in Hpi. rewrite Hpi. reflexivity. }
  rewrite domain_from_kernel_eq in U1.
  rewrite (U1 c piece _ (filter (fun p => mem p (map (kcol m) (filter (kernel_in_piece m piece) (kpts m)))) (is_points lg (pv_space src))) p Hpi Hkc);
    [|rewrite nth_error_map_some, Hkc; reflexivity|exact Hp].
  f_equal. destruct Hlg as [_ Hq]. destruct (Hq (pv_part dst) piece) as [Hnp Hinc]; [eapply nth_error_In; exact Hpi|].
  apply (@derived_entries T lg Hlg m (pv_space src) (part_parent lg (pv_part dst)) piece p Hok); [|exact Hinc|exact Hnp|exact Hp].
  destruct m; [exact I|symmetry; exact Hrow].
Qed.

(** ---- the derived partitions ---- *)
(** The row(s) of a stored entry. *)
Definition entry_row (m : matrix T) (kp r : point) : Prop :=
  match m with
  | COO c => co_row c kp = r
  | CSR c => In r (is_points lg (cs_rows c)) /\ contains (cs_rowptr c r) kp = true
  end.
Definition entry_col (m : matrix T) (kp : point) : point := match m with COO c => co_col c kp | CSR c => cs_col c kp end.

Lemma kernel_piece_in m q kps c piece kpiece : kernel_from_range lg m q = Ok kps ->
  nth_error (part_pieces lg q) c = Some piece -> nth_error kps c = Some kpiece ->
  forall kp, In kp kpiece <-> In kp (kpts m) /\ exists r, In r piece /\ entry_row m kp r.
Proof.
  intros Hk Hp Hkp kp. destruct (kernel_from_range_pieces _ _ Hk) as [Ek Hrow].
  rewrite Ek, nth_error_map_some, Hp in Hkp. cbn in Hkp. injection Hkp as <-. rewrite filter_In.
  destruct m as [m|m]; cbn [kernel_in_piece entry_row kpts].
  - rewrite mem_spec. split; intros [H1 H2]; (split; [exact H1|]).
    + exists (co_row m kp). split; [exact H2|reflexivity].
    + destruct H2 as [r [Hr <-]]. exact Hr.
  - rewrite existsb_exists. split; intros [H1 [r [Hr H2]]]; (split; [exact H1|]); exists r; (split; [exact Hr|]).
    + split; [|exact H2]. rewrite <- Hrow. destruct Hlg as [_ Hq]. apply (Hq q piece); [eapply nth_error_In; exact Hp|exact Hr].
    + apply H2.
Qed.
Lemma kernel_length (m : matrix T) q kps : kernel_from_range lg m q = Ok kps -> length kps = length (part_pieces lg q).
Proof. intros H. destruct (kernel_from_range_pieces _ _ H) as [-> _]. apply map_length. Qed.
End Facts.
