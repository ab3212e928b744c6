(** PropsExample: properties C43 (1-D Laplacian matrices) and C52 (2-D kernel size). *)
From Verif Require Import Base Index IndexSpec IndexFacts Outcome Sched Arith Launch Vector Matrix StencilSize StencilSpec PartitionSpec StencilFill StencilFillFacts StencilLaunch ExampleSystems.
Set Implicit Arguments.
Local Open Scope Z_scope.

(** Specification: the tridiagonal matrix with 2 on the diagonal and -1 beside it, as (row, column, entry) in row-major order *)
Section Spec.
Variable T : Type.
Variables two minus : T.
Definition tridiagonal_row (n i : Z) : list (Z * Z * T) :=
  (if 0 <? i then [(i, i - 1, minus)] else []) ++ [(i, i, two)] ++ (if i <? n - 1 then [(i, i + 1, minus)] else []).
Definition tridiagonal (n : nat) : list (Z * Z * T) := flat_map (fun i => tridiagonal_row (Z.of_nat n) (Z.of_nat i)) (seq 0 n).
End Spec.

Section Facts.
Variable T : Type.
Variable A : arith T.
Notation wstep := (wstep T).
Notation runS := (run loc_eq_dec).
Notation row n i := (tridiagonal_row (plus_two A) (minus_one A) n i).
Definition position (k : nat) : Z * Z * T := (lap_row (Z.of_nat k), lap_col (Z.of_nat k), lap_entry A (Z.of_nat k)).

Lemma position_val k q r : (0 <= q) -> (0 <= r < 3) -> Z.of_nat k = 3 * q + r - 1 -> position k = (q, q + r - 1, if r =? 1 then plus_two A else minus_one A).
Proof.
  intros Hq Hr E. unfold position, lap_row, lap_col, lap_entry. rewrite E. replace (3 * q + r - 1 + 1) with (3 * q + r) by lia.
  assert (Q : Z.quot (3 * q + r) 3 = q). { rewrite Z.quot_div_nonneg by lia. symmetry. apply (Z.div_unique _ _ _ r); lia. }
  rewrite Q. f_equal; [f_equal; lia|]. assert (Rm : (Z.rem (3 * q + r - 1) 3 =? 0) = (r =? 1)).
  { rewrite Z.rem_mod_nonneg by lia. assert (Hc : r = 0 \/ r = 1 \/ r = 2) by lia. destruct Hc as [->|[->| ->]].
    - rewrite <- (Z.mod_unique (3 * q + 0 - 1) 3 (q - 1) 2); [reflexivity|lia|lia].
    - rewrite <- (Z.mod_unique (3 * q + 1 - 1) 3 q 0); [reflexivity|lia|lia].
    - rewrite <- (Z.mod_unique (3 * q + 2 - 1) 3 q 1); [reflexivity|lia|lia]. }
  rewrite Rm. reflexivity.
Qed.
Lemma rows_prefix (n : nat) : (1 <= n)%nat -> forall i, (i <= n)%nat ->
  flat_map (fun i => row (Z.of_nat n) (Z.of_nat i)) (seq 0 i) = map position (seq 0 (if i =? 0 then 0 else if i =? n then 3 * n - 2 else 3 * i - 1)%nat).
Proof.
  intros Hn. induction i as [|i IH]; intros Hi; [reflexivity|]. rewrite seq_S, flat_map_app. cbn [flat_map]. rewrite IH by lia. rewrite app_nil_r. cbn [Nat.add].
  replace (S i =? 0)%nat with false by reflexivity. replace (i =? n)%nat with false by (symmetry; apply Nat.eqb_neq; lia).
  unfold tridiagonal_row.
  assert (P : forall k q r, (0 <= q) -> (0 <= r < 3) -> Z.of_nat k = 3 * q + r - 1 -> (q, q + r - 1, if r =? 1 then plus_two A else minus_one A) = position k) by (intros; symmetry; apply position_val; assumption).
  destruct i as [|i].
  - cbn [Nat.eqb seq map app]. destruct n as [|[|n]]; [lia| |].
    + cbn [Nat.eqb seq map app Nat.sub Nat.mul Nat.add]. rewrite <- (P 0%nat 0 1); try lia. reflexivity.
    + cbn [Nat.eqb seq map app Nat.sub Nat.mul Nat.add]. replace (Z.of_nat 0 <? Z.of_nat (S (S n)) - 1) with true by (symmetry; apply Z.ltb_lt; lia).
      rewrite <- (P 0%nat 0 1), <- (P 1%nat 0 2); try lia. reflexivity.
  - replace (S i =? 0)%nat with false by reflexivity. replace (0 <? Z.of_nat (S i)) with true by (symmetry; apply Z.ltb_lt; lia).
    destruct (Nat.eqb_spec (S (S i)) n) as [E|E].
    + replace (Z.of_nat (S i) <? Z.of_nat n - 1) with false by (symmetry; apply Z.ltb_ge; lia).
      replace (3 * n - 2)%nat with (S (S (3 * S i - 1))) by lia. rewrite !seq_S, !map_app, <- app_assoc. cbn [Nat.add map]. f_equal. cbn [app].
      rewrite <- (P (3 * S i - 1)%nat (Z.of_nat (S i)) 0), <- (P (S (3 * S i - 1)) (Z.of_nat (S i)) 1); try lia. cbn [Z.eqb Pos.eqb].
      repeat match goal with |- _ :: _ = _ :: _ => apply f_equal2 end; try reflexivity; apply f_equal2; try reflexivity; apply f_equal2; lia.
    + replace (Z.of_nat (S i) <? Z.of_nat n - 1) with true by (symmetry; apply Z.ltb_lt; lia).
      replace (3 * S (S i) - 1)%nat with (S (S (S (3 * S i - 1)))) by lia. rewrite !seq_S, !map_app, <- !app_assoc. cbn [Nat.add map]. f_equal. cbn [app].
      rewrite <- (P (3 * S i - 1)%nat (Z.of_nat (S i)) 0), <- (P (S (3 * S i - 1)) (Z.of_nat (S i)) 1), <- (P (S (S (3 * S i - 1))) (Z.of_nat (S i)) 2); try lia. cbn [Z.eqb Pos.eqb].
      repeat match goal with |- _ :: _ = _ :: _ => apply f_equal2 end; try reflexivity; apply f_equal2; try reflexivity; apply f_equal2; lia.
Qed.
Lemma tridiagonal_positions (n : nat) : (1 <= n)%nat -> tridiagonal (plus_two A) (minus_one A) n = map position (seq 0 (3 * n - 2)).
Proof.
  intros Hn. unfold tridiagonal. rewrite rows_prefix by lia. replace (n =? 0)%nat with false by (symmetry; apply Nat.eqb_neq; lia). rewrite Nat.eqb_refl. reflexivity.
Qed.

(** the launches *)
Lemma coo_task_in ks st : In st (lap_coo_task A ks) <-> exists k, In k ks /\
  (st = wr (LRow k) (CPoint [lap_row k]) \/ st = wr (LCol k) (CPoint [lap_col k]) \/ st = wr (LEntry k) (CEntry (lap_entry A k))).
Proof.
  unfold lap_coo_task. rewrite in_flat_map. split; intros [k [H1 H2]]; exists k; (split; [exact H1|]).
  - destruct H2 as [<-|[<-|[<-|[]]]]; auto.
  - destruct H2 as [->|[->| ->]]; cbn; auto.
Qed.
Lemma csr_task_in ks st : In st (lap_csr_task A ks) <-> exists k, In k ks /\
  (st = wr (LCol k) (CPoint [lap_col k]) \/ st = wr (LEntry k) (CEntry (lap_entry A k))).
Proof.
  unfold lap_csr_task. rewrite in_flat_map. split; intros [k [H1 H2]]; exists k; (split; [exact H1|]).
  - destruct H2 as [<-|[<-|[]]]; auto.
  - destruct H2 as [->| ->]; cbn; auto.
Qed.
Lemma rowptr_task_in n rs st : In st (lap_rowptr_task T n rs) <-> exists r, In r rs /\ st = wr (LRowptr [r]) (CRect (fst (lap_rowptr n r)) (snd (lap_rowptr n r))).
Proof.
  unfold lap_rowptr_task. rewrite in_flat_map. split; intros [k [H1 H2]]; exists k; (split; [exact H1|]).
  - destruct H2 as [<-|[]]; auto.
  - subst st. cbn; auto.
Qed.
Lemma coo_trace_memory n pieces tr s : coo_laplacian_trace A n pieces tr -> forall k, 0 <= k < lap_kernel_size n ->
  runS tr s (LRow k) = CPoint [lap_row k] /\ runS tr s (LCol k) = CPoint [lap_col k] /\ runS tr s (LEntry k) = CEntry (lap_entry A k).
Proof.
  intros [[Hc Hd] Hil] k Hk. apply Hc in Hk. destruct Hk as [ks [H1 H2]]. apply In_nth_error in H1. destruct H1 as [i Hi].
  assert (Hti : nth_error (map (lap_coo_task A) pieces) i = Some (lap_coo_task A ks)) by (rewrite nth_error_map, Hi; reflexivity).
  assert (Hni : non_interfering (map (lap_coo_task A) pieces)).
  { apply write_only_non_interfering.
    - apply Forall_forall. intros t Ht st Hst. apply in_map_iff in Ht. destruct Ht as [p [<- _]]. apply coo_task_in in Hst. destruct Hst as [k' [_ [->|[->| ->]]]]; reflexivity.
    - intros i1 i2 t1 t2 l Hne E1 E2 [st1 [I1 L1]] [st2 [I2 L2]]. rewrite nth_error_map in E1, E2.
      destruct (nth_error pieces i1) as [p1|] eqn:P1; [|discriminate]. destruct (nth_error pieces i2) as [p2|] eqn:P2; [|discriminate]. injection E1 as <-. injection E2 as <-.
      apply coo_task_in in I1. apply coo_task_in in I2. destruct I1 as [k1 [K1 I1]]. destruct I2 as [k2 [K2 I2]]. apply Hne. apply (Hd i1 i2 p1 p2 k1 P1 P2 K1).
      subst l. destruct I1 as [->|[->| ->]]; destruct I2 as [->|[->| ->]]; cbn in L2; try discriminate L2; injection L2 as ->; exact K2. }
  repeat split; eapply launch_const; try eassumption.
  - exists (wr (LRow k) (CPoint [lap_row k])). split; [apply coo_task_in; exists k; auto|reflexivity].
  - intros st Hst Hl. apply coo_task_in in Hst. destruct Hst as [k' [_ [->|[->| ->]]]]; cbn in Hl; try discriminate Hl. injection Hl as ->. reflexivity.
  - exists (wr (LCol k) (CPoint [lap_col k])). split; [apply coo_task_in; exists k; auto|reflexivity].
  - intros st Hst Hl. apply coo_task_in in Hst. destruct Hst as [k' [_ [->|[->| ->]]]]; cbn in Hl; try discriminate Hl. injection Hl as ->. reflexivity.
  - exists (wr (LEntry k) (CEntry (lap_entry A k))). split; [apply coo_task_in; exists k; auto|reflexivity].
  - intros st Hst Hl. apply coo_task_in in Hst. destruct Hst as [k' [_ [->|[->| ->]]]]; cbn in Hl; try discriminate Hl. injection Hl as ->. reflexivity.
Qed.
Lemma csr_trace_memory n kpieces rpieces tr s : csr_laplacian_trace A n kpieces rpieces tr ->
  (forall k, 0 <= k < lap_kernel_size n -> runS tr s (LCol k) = CPoint [lap_col k] /\ runS tr s (LEntry k) = CEntry (lap_entry A k)) /\
  (forall r, 0 <= r < n -> runS tr s (LRowptr [r]) = CRect (fst (lap_rowptr n r)) (snd (lap_rowptr n r))).
Proof.
  intros [[Kc Kd] [[Rc Rd] Hil]]. set (ts := map (lap_csr_task A) kpieces ++ map (lap_rowptr_task T n) rpieces) in *.
  assert (Get : forall i t, nth_error ts i = Some t ->
    (exists p, nth_error kpieces i = Some p /\ t = lap_csr_task A p) \/ (exists p, (length kpieces <= i)%nat /\ nth_error rpieces (i - length kpieces) = Some p /\ t = lap_rowptr_task T n p)).
  { intros i t Hi. unfold ts in Hi. destruct (Nat.lt_ge_cases i (length kpieces)) as [L|L].
    - rewrite nth_error_app1 in Hi by (rewrite map_length; exact L). rewrite nth_error_map in Hi. destruct (nth_error kpieces i) as [p|]; [|discriminate]. left. exists p. split; [reflexivity|]. injection Hi as <-. reflexivity.
    - rewrite nth_error_app2 in Hi by (rewrite map_length; exact L). rewrite map_length, nth_error_map in Hi. destruct (nth_error rpieces (i - length kpieces)) as [p|]; [|discriminate]. right. exists p. split; [exact L|]. split; [reflexivity|]. injection Hi as <-. reflexivity. }
  assert (Hni : non_interfering ts).
  { apply write_only_non_interfering.
    - apply Forall_forall. intros t Ht st Hst. apply In_nth_error in Ht. destruct Ht as [i Hi]. destruct (Get i t Hi) as [[p [_ ->]]|[p [_ [_ ->]]]].
      + apply csr_task_in in Hst. destruct Hst as [k' [_ [->| ->]]]; reflexivity.
      + apply rowptr_task_in in Hst. destruct Hst as [k' [_ ->]]; reflexivity.
    - intros i1 i2 t1 t2 l Hne E1 E2 [st1 [I1 L1]] [st2 [I2 L2]]. subst l.
      destruct (Get i1 t1 E1) as [[p1 [P1 ->]]|[p1 [Q1 [P1 ->]]]]; destruct (Get i2 t2 E2) as [[p2 [P2 ->]]|[p2 [Q2 [P2 ->]]]].
      + apply csr_task_in in I1. apply csr_task_in in I2. destruct I1 as [k1 [K1 I1]]. destruct I2 as [k2 [K2 I2]]. apply Hne. apply (Kd i1 i2 p1 p2 k1 P1 P2 K1).
        destruct I1 as [->| ->]; destruct I2 as [->| ->]; cbn in L2; try discriminate L2; injection L2 as ->; exact K2.
      + apply csr_task_in in I1. apply rowptr_task_in in I2. destruct I1 as [k1 [_ I1]]. destruct I2 as [k2 [_ I2]]. subst st2. destruct I1 as [->| ->]; discriminate L2.
      + apply csr_task_in in I2. apply rowptr_task_in in I1. destruct I1 as [k1 [_ I1]]. destruct I2 as [k2 [_ I2]]. subst st1. destruct I2 as [->| ->]; discriminate L2.
      + apply rowptr_task_in in I1. apply rowptr_task_in in I2. destruct I1 as [k1 [K1 I1]]. destruct I2 as [k2 [K2 I2]]. subst st1 st2. cbn in L2. injection L2 as ->.
        assert (X := Rd _ _ p1 p2 k1 P1 P2 K1 K2). apply Hne. lia. }
  split.
  - intros k Hk. apply Kc in Hk. destruct Hk as [ks [H1 H2]]. apply In_nth_error in H1. destruct H1 as [i Hi].
    assert (Hti : nth_error ts i = Some (lap_csr_task A ks)).
    { unfold ts. rewrite nth_error_app1; [rewrite nth_error_map, Hi; reflexivity|]. rewrite map_length. apply nth_error_Some. congruence. }
    split; eapply launch_const; try eassumption.
    + exists (wr (LCol k) (CPoint [lap_col k])). split; [apply csr_task_in; exists k; auto|reflexivity].
    + intros st Hst Hl. apply csr_task_in in Hst. destruct Hst as [k' [_ [->| ->]]]; cbn in Hl; try discriminate Hl. injection Hl as ->. reflexivity.
    + exists (wr (LEntry k) (CEntry (lap_entry A k))). split; [apply csr_task_in; exists k; auto|reflexivity].
    + intros st Hst Hl. apply csr_task_in in Hst. destruct Hst as [k' [_ [->| ->]]]; cbn in Hl; try discriminate Hl. injection Hl as ->. reflexivity.
  - intros r Hr. apply Rc in Hr. destruct Hr as [rs [H1 H2]]. apply In_nth_error in H1. destruct H1 as [i Hi].
    assert (Hti : nth_error ts (length kpieces + i) = Some (lap_rowptr_task T n rs)).
    { unfold ts. rewrite nth_error_app2; rewrite map_length; [|lia]. replace (length kpieces + i - length kpieces)%nat with i by lia. rewrite nth_error_map, Hi. reflexivity. }
    eapply launch_const; try eassumption.
    + exists (wr (LRowptr [r]) (CRect (fst (lap_rowptr n r)) (snd (lap_rowptr n r)))). split; [apply rowptr_task_in; exists r; auto|reflexivity].
    + intros st Hst Hl. apply rowptr_task_in in Hst. destruct Hst as [r' [_ ->]]; cbn in Hl. injection Hl as ->. reflexivity.
Qed.
End Facts.

(** what the kernel region holds at positions 0, 1, ..., as (row, column, entry) *)
Definition cells {T} (t : Z * Z * T) : cell T * cell T * cell T := let '(r, c, e) := t in (CPoint [r], CPoint [c], CEntry e).
Definition positions_upto (size : Z) : list Z := map Z.of_nat (seq 0 (Z.to_nat size)).

(** ** C43 *)
Theorem C43_coo_laplacian : forall (T : Type) (A : arith T) (n : nat) pieces tr s, (1 <= n)%nat ->
  coo_laplacian_trace A (Z.of_nat n) pieces tr ->
  let m := run loc_eq_dec tr s in
  map (fun k => (m (LRow k), m (LCol k), m (LEntry k))) (positions_upto (lap_kernel_size (Z.of_nat n)))
  = map cells (tridiagonal (aadd A (a1 A) (a1 A)) (aneg A (a1 A)) n).
Proof.
  intros T A n pieces tr s Hn Ht m. change (aadd A (a1 A) (a1 A)) with (plus_two A). change (aneg A (a1 A)) with (minus_one A). rewrite tridiagonal_positions by exact Hn.
  unfold positions_upto, lap_kernel_size. replace (Z.to_nat (3 * Z.of_nat n - 2)) with (3 * n - 2)%nat by lia. rewrite !map_map. apply map_ext_in. intros k Hk. apply in_seq in Hk.
  destruct (@coo_trace_memory T A (Z.of_nat n) pieces tr s Ht (Z.of_nat k)) as [H1 [H2 H3]]; [unfold lap_kernel_size; lia|].
  unfold m. rewrite H1, H2, H3. reflexivity.
Qed.
Theorem C43_csr_laplacian : forall (T : Type) (A : arith T) (n : nat) kpieces rpieces tr s, (1 <= n)%nat ->
  csr_laplacian_trace A (Z.of_nat n) kpieces rpieces tr ->
  let m := run loc_eq_dec tr s in
  let contents := tridiagonal (aadd A (a1 A) (a1 A)) (aneg A (a1 A)) n in
  map (fun k => (m (LCol k), m (LEntry k))) (positions_upto (lap_kernel_size (Z.of_nat n)))
    = map (fun t => (snd (fst (cells t)), snd (cells t))) contents /\
  exists first last : Z -> Z, (forall i, 0 <= i < Z.of_nat n -> m (LRowptr [i]) = CRect (first i) (last i)) /\
    (* the row pointer of row i selects exactly the stored entries of row i *)
    (forall i k r c e, 0 <= i < Z.of_nat n -> nth_error contents k = Some (r, c, e) -> (first i <= Z.of_nat k <= last i <-> r = i)) /\
    (* contiguous *)
    first 0 = 0 /\ (forall i, 0 <= i -> i + 1 < Z.of_nat n -> first (i + 1) = last i + 1) /\
    (* within the stored range, except that for n = 1 the only row pointer reaches one past the end *)
    last (Z.of_nat n - 1) = if Z.of_nat n =? 1 then lap_kernel_size (Z.of_nat n) else lap_kernel_size (Z.of_nat n) - 1.
Proof.
  intros T A n kpieces rpieces tr s Hn Ht m contents. destruct (@csr_trace_memory T A (Z.of_nat n) kpieces rpieces tr s Ht) as [M1 M2].
  assert (Ec : contents = map (position A) (seq 0 (3 * n - 2))) by (apply tridiagonal_positions; exact Hn).
  split.
  - rewrite Ec. unfold positions_upto, lap_kernel_size. replace (Z.to_nat (3 * Z.of_nat n - 2)) with (3 * n - 2)%nat by lia. rewrite !map_map. apply map_ext_in. intros k Hk. apply in_seq in Hk.
    destruct (M1 (Z.of_nat k)) as [H2 H3]; [unfold lap_kernel_size; lia|]. unfold m. rewrite H2, H3. reflexivity.
  - exists (fun i => fst (lap_rowptr (Z.of_nat n) i)), (fun i => snd (lap_rowptr (Z.of_nat n) i)). split; [exact M2|]. split; [|split; [|split]].
    + intros i k r c e Hi Hk. rewrite Ec, nth_error_map_some in Hk.
      destruct (nth_error (seq 0 (3 * n - 2)) k) as [k'|] eqn:Ek; [|discriminate]. assert (Hlt : (k < 3 * n - 2)%nat) by (rewrite <- (seq_length (3 * n - 2) 0); apply nth_error_Some; congruence).
      assert (k' = k). { apply (nth_error_nth _ _ 0%nat) in Ek. rewrite seq_nth in Ek by exact Hlt. lia. } subst k'. cbn in Hk. injection Hk as Hr _ _. subst r.
      unfold lap_row. rewrite Z.quot_div_nonneg by lia. assert (D := Z.div_mod (Z.of_nat k + 1) 3 ltac:(lia)). assert (Dm := Z.mod_pos_bound (Z.of_nat k + 1) 3 ltac:(lia)).
      unfold lap_rowptr. destruct (Z.eqb_spec i 0) as [->|Hi0]; [cbn [fst snd]; lia|]. destruct (Z.eqb_spec i (Z.of_nat n - 1)) as [->|Hin]; cbn [fst snd]; lia.
    + reflexivity.
    + intros i H0 H1. unfold lap_rowptr. destruct (Z.eqb_spec (i + 1) 0); [lia|]. destruct (Z.eqb_spec i 0) as [->|Hi0]; cbn [fst snd].
      * destruct (Z.eqb_spec (0 + 1) (Z.of_nat n - 1)); cbn [fst snd]; lia.
      * destruct (Z.eqb_spec i (Z.of_nat n - 1)); [lia|]. destruct (Z.eqb_spec (i + 1) (Z.of_nat n - 1)); cbn [fst snd]; lia.
    + unfold lap_rowptr, lap_kernel_size. destruct (Z.eqb_spec (Z.of_nat n) 1) as [->|N1]; [reflexivity|].
      destruct (Z.eqb_spec (Z.of_nat n - 1) 0); [lia|]. rewrite Z.eqb_refl. cbn [snd]. lia.
Qed.
Example C43_example : (* one kernel piece, one row piece, n = 3 *)
  let kp := [0; 1; 2; 3; 4; 5; 6] in
  csr_laplacian_trace exact 3 [kp] [[0; 1; 2]] (lap_csr_task exact kp ++ lap_rowptr_task _ 3 [0; 1; 2]) /\
  map (lap_rowptr 3) [0; 1; 2] = [(0, 1); (2, 4); (5, 6)] /\ map (@fst (Z * Z) Z) (tridiagonal 2 (-1) 3) = [(0, 0); (0, 1); (1, 0); (1, 1); (1, 2); (2, 1); (2, 2)] /\
  lap_rowptr 1 0 = (0, 1) /\ lap_kernel_size 1 = 1.
Proof.
  split; [|repeat split].
  split; [|split].
  - split; [intros k; cbn; split; [intros H; eexists; split; [left; reflexivity|cbn; lia]|intros [ks [[<-|[]] H]]; cbn in H; lia]|].
    intros i j ki kj k Hi Hj _ _. destruct i as [|[|i]]; destruct j as [|[|j]]; try discriminate; reflexivity.
  - split; [intros k; cbn; split; [intros H; eexists; split; [left; reflexivity|cbn; lia]|intros [ks [[<-|[]] H]]; cbn in H; lia]|].
    intros i j ki kj k Hi Hj _ _. destruct i as [|[|i]]; destruct j as [|[|j]]; try discriminate; reflexivity.
  - assert (H := interleave_concat [lap_csr_task exact [0; 1; 2; 3; 4; 5; 6]; lap_rowptr_task (option Rdefinitions.R) 3 [0; 1; 2]]). cbn [concat] in H. rewrite app_nil_r in H. exact H.
Qed.
