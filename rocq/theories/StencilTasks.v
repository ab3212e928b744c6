(** StencilTasks: every completed run of a fill task writes what the specification says (fuel-independent), and
    the tasks always complete. *)
From Verif Require Import Base Index IndexSpec IndexFacts Outcome Sched PartitionSpec StencilSpec StencilSize StencilSizeFacts
  StencilFill StencilFillFacts StencilLaunch StencilSkip.
Local Open Scope Z_scope.

Section T.
Variable E : Type.
Implicit Types (offs sorted : list (point * E)) (enc : point -> point).

(** ** more fuel does not change a completed run *)
Lemma fill_loop_mono inc (body : point -> Z -> list (wstep E) * Z) f f' p k r :
  fill_loop f inc body p k = Ok r -> (f <= f')%nat -> fill_loop f' inc body p k = Ok r.
Proof.
  revert f' p k r. induction f as [|f IH]; intros [|f'] p k r H Hf; simpl in H; try discriminate; try lia.
  simpl. destruct (body p k) as [ws k1]. destruct (inc p) as [q more]. destruct more; [|exact H].
  destruct (fill_loop f inc body q k1) as [r'| | |] eqn:Q; cbn [obind] in H; try discriminate.
  rewrite (IH f' q k1 r' Q) by lia. exact H.
Qed.
Lemma skip_loop_mono b offs mdom rdom f f' sz p k r :
  skip_loop b offs mdom rdom f sz p k = Ok r -> (f <= f')%nat -> skip_loop b offs mdom rdom f' sz p k = Ok r.
Proof.
  revert f' p k. induction f as [|f IH]; intros [|f'] p k H Hf; simpl in H; try discriminate; try lia.
  simpl. destruct (in_bulk b offs p && (k + sz <? dlo mdom) && (linearize_row_major b (increment_head p) <? dlo rdom)); [|exact H].
  apply IH; [exact H|lia].
Qed.
Lemma prologue_mono b offs mdom rdom f f' p k o fd r :
  prologue b offs mdom rdom f p k o fd = Ok r -> (f <= f')%nat -> prologue b offs mdom rdom f' p k o fd = Ok r.
Proof.
  unfold prologue. intros H Hf. destruct (tail_equal p (lo b)); [|exact H]. destruct fd; [|exact H].
  destruct (skip_loop b offs mdom rdom f (k - o) p k) as [r'| | |] eqn:Q; cbn [obind] in H; try discriminate.
  rewrite (skip_loop_mono _ _ _ _ _ f' _ _ _ _ Q Hf). exact H.
Qed.
Lemma lin_csr_loop_mono b offs mdom rdom f f' p k o fd r :
  lin_csr_loop b offs mdom rdom f p k o fd = Ok r -> (f <= f')%nat -> lin_csr_loop b offs mdom rdom f' p k o fd = Ok r.
Proof.
  revert f' p k o fd r. induction f as [|f IH]; intros [|f'] p k o fd r H Hf; try discriminate; try lia.
  cbn [lin_csr_loop] in H |- *.
  destruct (prologue b offs mdom rdom (S f) p k o fd) as [st| | |] eqn:Q; cbn [obind] in H; try discriminate.
  rewrite (prologue_mono _ _ _ _ _ (S f') _ _ _ _ _ Q Hf). cbn [obind].
  destruct st as [[[p1 k1] o1] fd1].
  destruct (row_loop b (emit_csr (fun q => [linearize_row_major b q]) (dmem mdom)) offs p1 k1) as [ws k2].
  destruct ((k2 >? dhi mdom) && (linearize_row_major b p1 >? dhi rdom)); [exact H|].
  destruct (increment_row_major b p1) as [q more]. destruct more; [|exact H].
  destruct (lin_csr_loop b offs mdom rdom f q k2 o1 fd1) as [r'| | |] eqn:Q2; cbn [obind] in H; try discriminate.
  rewrite (IH f' _ _ _ _ _ Q2) by lia. exact H.
Qed.

(** ** characterisations *)
Lemma coo_gen_like fuel o b enc mdom sorted t k : wf_box b ->
  fill_coo_gen fuel o b enc mdom sorted = Ok (t, k) -> coo_writes_like o b enc mdom sorted t.
Proof.
  intros Hb H. set (F := Nat.max fuel (length (box_points o (clamp b)))).
  assert (H' : fill_coo_gen F o b enc mdom sorted = Ok (t, k)) by (eapply fill_loop_mono; [exact H|unfold F; lia]).
  rewrite fill_coo_gen_spec in H' by (try exact Hb; unfold enough_fuel, F; lia). injection H' as <- _.
  intros st. apply in_coo_pass. exact Hb.
Qed.

Lemma csr_gen_like fuel o b enc mdom rdom sorted t k : wf_box b ->
  (nonempty_box b \/ forall p, rdom p = false) ->
  fill_csr_gen fuel o b enc mdom rdom sorted = Ok (t, k) -> csr_writes_like o b enc mdom rdom sorted t.
Proof.
  intros Hb Hor H. set (F := Nat.max fuel (length (box_points o (clamp b)))).
  assert (H' : fill_csr_gen F o b enc mdom rdom sorted = Ok (t, k)) by (eapply fill_loop_mono; [exact H|unfold F; lia]).
  rewrite fill_csr_gen_spec in H' by (try exact Hb; unfold enough_fuel, F; lia). injection H' as <- _.
  destruct (nonempty_box_dec b) as [Hn|Hn].
  - intros st. rewrite in_csr_pass by exact Hn. unfold row_last. split; (intros [G|[i [p (G1 & G2 & G3)]]]; [left; exact G|right; exists i, p]);
      (split; [exact G1|]); (split; [exact G2|]); rewrite ?row_start_first in *; exact G3.
  - destruct Hor as [Hor|Hor]; [contradiction|]. intros st. split.
    + intros Hin. apply in_csr_pass_empty in Hin; [|exact Hb|exact Hn]. destruct Hin as [p [Hp _]]. rewrite Hor in Hp. discriminate.
    + unfold entries. rewrite empty_box_points by assumption.
      intros [[n [p [c [e (G & _)]]]]|[i [p (G & _)]]]; [destruct n|destruct i]; discriminate.
Qed.

Lemma lin_csr_like fuel o b mdom rdom sorted t : lo b <> [] -> nonempty_box b -> offsets_dim b sorted ->
  (forall k, dmem mdom k = true -> dlo mdom <= k <= dhi mdom) ->
  (forall k, dmem rdom k = true -> dlo rdom <= k <= dhi rdom) ->
  dlo mdom <= Z.of_nat (length (stencil_contents o b sorted)) \/ dlo rdom <= volume b ->
  fill_linearized_csr_task fuel o b mdom rdom sorted = Ok t ->
  csr_writes_like o b (fun p => [linearize o b p]) (dmem mdom) (fun p => dmem rdom (hd 0 p)) sorted t.
Proof.
  intros Hl Hn Hd Hm Hr Hend H. destruct o.
  - set (F := Nat.max fuel (Z.to_nat (volume b) + 1)).
    assert (H' : fill_linearized_csr_task F ROW_MAJOR b mdom rdom sorted = Ok t)
      by (unfold fill_linearized_csr_task in *; eapply lin_csr_loop_mono; [exact H|unfold F; lia]).
    rewrite linearized_csr_skip_equals_plain in H'; try assumption; [|rewrite <- entries_contents, map_length in Hend; exact Hend|unfold F; lia].
    injection H' as <-. intros st.
    pose proof (in_csr_pass E ROW_MAJOR b (fun q => [linearize_row_major b q]) (dmem mdom) (fun p => dmem rdom (hd 0 p)) sorted st Hn) as G.
    rewrite clamp_id in G by exact Hn. cbn [box_points linearize] in *. rewrite G. unfold row_last.
    split; (intros [G'|[i [p (G1 & G2 & G3)]]]; [left; exact G'|right; exists i, p]);
      (split; [exact G1|]); (split; [exact G2|]); rewrite ?row_start_first in *; exact G3.
  - unfold fill_linearized_csr_task in H.
    destruct (fill_csr_gen fuel COLUMN_MAJOR b (fun p => [linearize_column_major b p]) (dmem mdom) (fun p => dmem rdom (hd 0 p)) sorted)
      as [[t' k]| | |] eqn:Q; cbn [obind fst] in H; try discriminate. injection H as <-.
    eapply csr_gen_like; [apply nonempty_wf; exact Hn|left; exact Hn|exact Q].
Qed.

(** ** completion *)
Lemma fill_coo_terminates o b enc sorted : wf_box b ->
  exists F, forall fuel mdom, (F <= fuel)%nat -> exists r, fill_coo_gen fuel o b enc mdom sorted = Ok r.
Proof.
  intros Hb. exists (length (box_points o (clamp b))). intros fuel mdom Hf.
  rewrite fill_coo_gen_spec by assumption. eexists. reflexivity.
Qed.
Lemma fill_csr_terminates o b enc sorted : wf_box b ->
  exists F, forall fuel mdom rdom, (F <= fuel)%nat -> exists r, fill_csr_gen fuel o b enc mdom rdom sorted = Ok r.
Proof.
  intros Hb. exists (length (box_points o (clamp b))). intros fuel mdom rdom Hf.
  rewrite fill_csr_gen_spec by assumption. eexists. reflexivity.
Qed.
Lemma fill_lin_csr_terminates o b sorted : lo b <> [] -> nonempty_box b -> offsets_dim b sorted ->
  exists F, forall fuel mdom rdom, (F <= fuel)%nat ->
   (forall k, dmem mdom k = true -> dlo mdom <= k <= dhi mdom) ->
   (forall k, dmem rdom k = true -> dlo rdom <= k <= dhi rdom) ->
   dlo mdom <= Z.of_nat (length (stencil_contents o b sorted)) \/ dlo rdom <= volume b ->
   exists r, fill_linearized_csr_task fuel o b mdom rdom sorted = Ok r.
Proof.
  intros Hl Hn Hd. destruct o.
  - exists (Z.to_nat (volume b) + 1)%nat. intros fuel mdom rdom Hf Hm Hr Hend.
    rewrite linearized_csr_skip_equals_plain; try assumption; [eexists; reflexivity|].
    rewrite <- entries_contents, map_length in Hend. exact Hend.
  - destruct (fill_csr_terminates COLUMN_MAJOR b (fun p => [linearize_column_major b p]) sorted (nonempty_wf _ Hn)) as [F HF].
    exists F. intros fuel mdom rdom Hf Hm Hr Hend. unfold fill_linearized_csr_task.
    destruct (HF fuel (dmem mdom) (fun p => dmem rdom (hd 0 p)) Hf) as [r ->]. eexists. reflexivity.
Qed.
End T.
