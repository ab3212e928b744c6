(** PropsBenchRuns: property C92: which processes the benchmark scripts /repo/bench_all.py and /repo/bench_all_ls.py start. *)
From Coq Require Import Reals String Ascii.
From Verif Require Import Base Index Outcome Peers TestAll BenchAll PropsBenchAll.
From Verif Require PropsTestAll.
From Coq Require Import List ZArith Bool Lia.
Import ListNotations.
Set Implicit Arguments.
Local Open Scope string_scope.
Local Open Scope list_scope.

(** ** Specification *)
(** the error output contains the words "out of memory" *)
Definition ran_out_of_memory (e : ended) : Prop := exists a b, e_stderr e = String.append a (String.append "out of memory" b).
Definition success (e : ended) : Prop := e_code e = 0%Z.
(** the processes started for one problem size, the last of them successful, at most five in all *)
Definition finished (l : list started) : Prop :=
  exists before last, map snd l = before ++ [last] /\ Forall (fun e => ~ success e) before /\ (length before < 5)%nat /\ success last.
(** five processes, none successful *)
Definition given_up (l : list started) : Prop := length l = 5%nat /\ Forall (fun p => ~ success (snd p)) l.
(** the same for PETSc, where the words "out of memory" count as well, whatever the return code *)
Definition petsc_finished (l : list started) : Prop :=
  exists before last, map snd l = before ++ [last] /\ Forall (fun e => ~ success e /\ ~ ran_out_of_memory e) before /\ (length before < 5)%nat /\
    success last /\ ~ ran_out_of_memory last.
Definition petsc_limit (l : list started) : Prop :=
  (exists before last, map snd l = before ++ [last] /\ Forall (fun e => ~ success e /\ ~ ran_out_of_memory e) before /\ (length before < 5)%nat /\ ran_out_of_memory last) \/
  (length l = 5%nat /\ Forall (fun p => ~ success (snd p) /\ ~ ran_out_of_memory (snd p)) l).
(** every process has the command of its problem size, and the processes are number n, n+1, ... of the script *)
Definition started_as (world : nat -> list string -> ended) (command_of : problem_size -> list string) (n : nat) (runs : list (problem_size * list started)) : Prop :=
  Forall (fun r => Forall (fun p => fst p = command_of (fst r)) (snd r)) runs /\
  forall j p, nth_error (concat (map snd runs)) j = Some p -> snd p = world (n + j)%nat (fst p).
(** PETSc: the sizes 0, ..., M-1 finished, size M reached the limit *)
Definition petsc_record (i : iterator) (M : nat) (runs : list (problem_size * list started)) : Prop :=
  exists done final, runs = done ++ [(kth_size i M, final)] /\ map fst done = map (kth_size i) (seq 0 M) /\ Forall (fun r => petsc_finished (snd r)) done /\ petsc_limit final.
(** the other two: the sizes 0, ..., M-1 finished, or a shorter run that ends with a size that was given up *)
Definition bounded_record (i : iterator) (M : nat) (runs : list (problem_size * list started)) : Prop :=
  (map fst runs = map (kth_size i) (seq 0 M) /\ Forall (fun r => finished (snd r)) runs) \/
  exists j done final, (j < M)%nat /\ runs = done ++ [(kth_size i j, final)] /\ map fst done = map (kth_size i) (seq 0 j) /\ Forall (fun r => finished (snd r)) done /\ given_up final.

(** ** Proofs *)
Lemma oom_spec e : out_of_memory e = true <-> ran_out_of_memory e.
Proof. apply PropsTestAll.occurs_in_spec. Qed.
Lemma oom_false e : out_of_memory e = false <-> ~ ran_out_of_memory e.
Proof. rewrite <- oom_spec. destruct (out_of_memory e); split; intros; congruence. Qed.
Lemma same_size_spec a b : same_size a b = true <-> a = b.
Proof.
  destruct a, b; cbn [same_size]; rewrite ?andb_true_iff, ?Z.eqb_eq; split; intros H; try discriminate H; try (injection H); intros; subst; try tauto.
  - destruct H as [-> ->]; reflexivity.
  - destruct H as [[-> ->] ->]; reflexivity.
Qed.
Lemma kth_inj i a b : kth_size i a = kth_size i b -> a = b.
Proof.
  intros H. pose proof (proj2 (C91_sizes i a)) as A. pose proof (proj2 (C91_sizes i b)) as B. rewrite H, B in A. apply Z.pow_inj_r in A; lia.
Qed.

Section Loops.
Variable world : nat -> list string -> ended.
Variable args_of : problem_size -> outcome (list string).
Variables (program rank_per : string) (mpi : bool).
Variable command_of : problem_size -> list string.
Variable i : iterator.
Hypothesis commands : forall k, (do args <- args_of (kth_size i k); jsrun_command program args rank_per mpi) = Ok (command_of (kth_size i k)).

Lemma command_split k : exists args, args_of (kth_size i k) = Ok args /\ jsrun_command program args rank_per mpi = Ok (command_of (kth_size i k)).
Proof. pose proof (commands k) as H. destruct (args_of (kth_size i k)) as [args| | |]; try discriminate H. exists args. auto. Qed.

Definition follows (n : nat) (l : list started) : Prop := forall j p, nth_error l j = Some p -> snd p = world (n + j)%nat (fst p).
Lemma follows_cons n c l : follows (S n) l -> follows n ((c, world n c) :: l).
Proof.
  intros H [|j] p E; cbn [nth_error] in E.
  - injection E as <-. cbn. now rewrite Nat.add_0_r.
  - rewrite <- Nat.add_succ_comm. now apply H.
Qed.
Lemma follows_app n l l' : follows n l -> follows (n + length l) l' -> follows n (l ++ l').
Proof.
  intros H H' j p E. destruct (Nat.lt_ge_cases j (length l)) as [L|L].
  - rewrite nth_error_app1 in E by exact L. now apply H.
  - rewrite nth_error_app2 in E by exact L. apply H' in E. rewrite E. f_equal. lia.
Qed.
Lemma follows_nil n : follows n [].
Proof. intros [|j] p E; discriminate E. Qed.

Lemma attempts_spec k : forall fuel n tries, (tries < 5)%nat -> (5 - tries <= fuel)%nat -> exists r l,
  attempts world args_of program rank_per mpi fuel n tries (kth_size i k) = Ok (r, l) /\ follows n l /\ Forall (fun p => fst p = command_of (kth_size i k)) l /\
  match r with
  | GoOn => exists before last, map snd l = before ++ [last] /\ Forall (fun e => ~ success e) before /\ (length before < 5 - tries)%nat /\ success last
  | Stop => length l = (5 - tries)%nat /\ Forall (fun p => ~ success (snd p)) l
  end.
Proof.
  destruct (command_split k) as (args & Ha & Hc). induction fuel as [|fuel IH]; intros n tries Ht Hf; [lia|].
  cbn [attempts]. rewrite Ha. cbn [obind]. rewrite Hc. cbn [obind]. set (c := command_of (kth_size i k)).
  destruct (Z.eqb_spec (e_code (world n c)) 0) as [E|E].
  - exists GoOn, [(c, world n c)]. split; [reflexivity|]. split; [apply follows_cons, follows_nil|]. split; [repeat constructor|].
    exists [], (world n c). split; [reflexivity|]. split; [constructor|]. split; [cbn [length]; lia|exact E].
  - destruct (Nat.leb_spec 5 (tries + 1)) as [L|L].
    + exists Stop, [(c, world n c)]. split; [reflexivity|]. split; [apply follows_cons, follows_nil|]. split; [repeat constructor|].
      split; [cbn [length]; lia|]. repeat constructor. exact E.
    + destruct (IH (S n) (tries + 1)%nat ltac:(lia) ltac:(lia)) as (r & l & E1 & F & C & R). rewrite E1. cbn [obind fst snd].
      exists r, ((c, world n c) :: l). split; [reflexivity|]. split; [now apply follows_cons|]. split; [constructor; [reflexivity|exact C]|].
      destruct r.
      * destruct R as (before & last & R1 & R2 & R3 & R4). exists (world n c :: before), last. cbn [map snd]. rewrite R1. split; [reflexivity|]. split; [constructor; [exact E|exact R2]|]. split; [cbn [length]; lia|exact R4].
      * destruct R as [R1 R2]. split; [cbn [length]; lia|]. constructor; [exact E|exact R2].
Qed.
Lemma petsc_attempts_spec k : forall fuel n tries, (tries < 5)%nat -> (5 - tries <= fuel)%nat -> exists r l,
  petsc_attempts world args_of program rank_per mpi fuel n tries (kth_size i k) = Ok (r, l) /\ follows n l /\ Forall (fun p => fst p = command_of (kth_size i k)) l /\
  match r with
  | GoOn => exists before last, map snd l = before ++ [last] /\ Forall (fun e => ~ success e /\ ~ ran_out_of_memory e) before /\ (length before < 5 - tries)%nat /\
              success last /\ ~ ran_out_of_memory last
  | Stop => (exists before last, map snd l = before ++ [last] /\ Forall (fun e => ~ success e /\ ~ ran_out_of_memory e) before /\ (length before < 5 - tries)%nat /\ ran_out_of_memory last) \/
      (length l = (5 - tries)%nat /\ Forall (fun p => ~ success (snd p) /\ ~ ran_out_of_memory (snd p)) l)
  end.
Proof.
  destruct (command_split k) as (args & Ha & Hc). induction fuel as [|fuel IH]; intros n tries Ht Hf; [lia|].
  cbn [petsc_attempts]. rewrite Ha. cbn [obind]. rewrite Hc. cbn [obind]. set (c := command_of (kth_size i k)).
  destruct (out_of_memory (world n c)) eqn:O.
  { exists Stop, [(c, world n c)]. split; [reflexivity|]. split; [apply follows_cons, follows_nil|]. split; [repeat constructor|].
    left. exists [], (world n c). split; [reflexivity|]. split; [constructor|]. split; [cbn [length]; lia|now apply oom_spec]. }
  apply oom_false in O.
  destruct (Z.eqb_spec (e_code (world n c)) 0) as [E|E].
  - exists GoOn, [(c, world n c)]. split; [reflexivity|]. split; [apply follows_cons, follows_nil|]. split; [repeat constructor|].
    exists [], (world n c). split; [reflexivity|]. split; [constructor|]. split; [cbn [length]; lia|]. split; [exact E|exact O].
  - destruct (Nat.leb_spec 5 (tries + 1)) as [L|L].
    + exists Stop, [(c, world n c)]. split; [reflexivity|]. split; [apply follows_cons, follows_nil|]. split; [repeat constructor|].
      right. split; [cbn [length]; lia|]. repeat constructor; assumption.
    + destruct (IH (S n) (tries + 1)%nat ltac:(lia) ltac:(lia)) as (r & l & E1 & F & C & R). rewrite E1. cbn [obind fst snd].
      exists r, ((c, world n c) :: l). split; [reflexivity|]. split; [now apply follows_cons|]. split; [constructor; [reflexivity|exact C]|].
      destruct r.
      * destruct R as (before & last & R1 & R2 & R3 & R4). exists (world n c :: before), last. cbn [map snd]. rewrite R1.
        split; [reflexivity|]. split; [constructor; [split; assumption|exact R2]|]. split; [cbn [length]; lia|exact R4].
      * destruct R as [(before & last & R1 & R2 & R3 & R4)|[R1 R2]].
        -- left. exists (world n c :: before), last. cbn [map snd]. rewrite R1. split; [reflexivity|]. split; [constructor; [split; assumption|exact R2]|]. split; [cbn [length]; lia|exact R4].
        -- right. split; [cbn [length]; lia|]. constructor; [split; assumption|exact R2].
Qed.

Lemma started_cons n s l runs : follows n l -> Forall (fun p => fst p = command_of s) l -> started_as world command_of (n + length l) runs -> started_as world command_of n ((s, l) :: runs).
Proof.
  intros F C [S1 S2]. split; [constructor; [exact C|exact S1]|]. cbn [map concat snd]. apply follows_app; [exact F|exact S2].
Qed.
Lemma started_nil n : started_as world command_of n [].
Proof. split; [constructor|apply follows_nil]. Qed.

Lemma bounded_from M : forall d k fuel n, (k + d = M)%nat -> (d < fuel)%nat -> exists runs,
  bounded_loop world args_of program rank_per mpi fuel i (Nat.iter k (resume i) (start_iterator i)) (kth_size i M) n = Ok runs /\ started_as world command_of n runs /\
  ((map fst runs = map (kth_size i) (seq k d) /\ Forall (fun r => finished (snd r)) runs) \/
   exists j done final, (j < d)%nat /\ runs = done ++ [(kth_size i (k + j), final)] /\ map fst done = map (kth_size i) (seq k j) /\ Forall (fun r => finished (snd r)) done /\ given_up final).
Proof.
  induction d as [|d IH]; intros k fuel n Hk Hf; (destruct fuel as [|fuel]; [lia|]); cbn [bounded_loop]; fold (kth_size i k).
  - replace k with M by lia. rewrite (proj2 (same_size_spec _ _) eq_refl). exists []. split; [reflexivity|]. split; [apply started_nil|]. left. split; [reflexivity|constructor].
  - destruct (same_size (kth_size i k) (kth_size i M)) eqn:E; [apply same_size_spec, kth_inj in E; lia|].
    destruct (@attempts_spec k (S fuel + 4) n 0%nat ltac:(lia) ltac:(lia)) as (r & l & E1 & F & C & R). rewrite E1. cbn [obind fst snd].
    destruct r.
    + change (resume i (Nat.iter k (resume i) (start_iterator i))) with (Nat.iter (S k) (resume i) (start_iterator i)).
      destruct (IH (S k) fuel (n + length l)%nat ltac:(lia) ltac:(lia)) as (runs & E2 & S2 & R2). rewrite E2. cbn [obind].
      exists ((kth_size i k, l) :: runs). split; [reflexivity|]. split; [now apply started_cons|]. destruct R2 as [[A B]|(j & done & final & Hj & A1 & A2 & A3 & A4)].
      * left. split; [cbn [map fst seq]; now rewrite A|]. constructor; [exact R|exact B].
      * right. exists (S j), ((kth_size i k, l) :: done), final. split; [lia|]. split; [rewrite A1, <- Nat.add_succ_comm; reflexivity|].
        split; [cbn [map fst seq]; now rewrite A2|]. split; [constructor; [exact R|exact A3]|exact A4].
    + exists [(kth_size i k, l)]. split; [reflexivity|]. split; [apply started_cons; [exact F|exact C|apply started_nil]|]. right. exists 0%nat, [], l.
      split; [lia|]. split; [rewrite Nat.add_0_r; reflexivity|]. split; [reflexivity|]. split; [constructor|exact R].
Qed.
Lemma bounded_spec M fuel n : (M < fuel)%nat -> exists runs,
  bounded_loop world args_of program rank_per mpi fuel i (start_iterator i) (kth_size i M) n = Ok runs /\ started_as world command_of n runs /\ bounded_record i M runs.
Proof.
  intros H. destruct (@bounded_from M M 0%nat fuel n eq_refl H) as (runs & E & S1 & R). exists runs. split; [exact E|]. split; [exact S1|].
  destruct R as [R|(j & done & final & R)]; [left; exact R|]. right. exists j, done, final. exact R.
Qed.
(** without such a size the loop only ends by giving up *)
Lemma bounded_never max : (forall k, kth_size i k <> max) -> (forall n c, success (world n c)) -> forall fuel k n,
  bounded_loop world args_of program rank_per mpi fuel i (Nat.iter k (resume i) (start_iterator i)) max n = OutOfFuel.
Proof.
  intros Hm Hw. induction fuel as [|fuel IH]; intros k n; [reflexivity|]. cbn [bounded_loop]. fold (kth_size i k).
  destruct (same_size (kth_size i k) max) eqn:E; [apply same_size_spec in E; destruct (Hm _ E)|].
  destruct (command_split k) as (args & Ha & Hc). rewrite Nat.add_comm. change (4 + S fuel)%nat with (S (3 + S fuel)). cbn [attempts].
  rewrite Ha. cbn [obind]. rewrite Hc. cbn [obind]. rewrite (Hw n), Z.eqb_refl. cbn [obind fst snd].
  change (resume i (Nat.iter k (resume i) (start_iterator i))) with (Nat.iter (S k) (resume i) (start_iterator i)). now rewrite IH.
Qed.

Lemma petsc_from : forall fuel k n max runs,
  petsc_loop world args_of program rank_per mpi fuel i (Nat.iter k (resume i) (start_iterator i)) n = Ok (max, runs) ->
  started_as world command_of n runs /\ exists d done final, (d < fuel)%nat /\ max = kth_size i (k + d) /\ runs = done ++ [(kth_size i (k + d), final)] /\
    map fst done = map (kth_size i) (seq k d) /\ Forall (fun r => petsc_finished (snd r)) done /\ petsc_limit final.
Proof.
  induction fuel as [|fuel IH]; intros k n max runs H; [discriminate H|]. cbn [petsc_loop] in H. fold (kth_size i k) in H.
  destruct (@petsc_attempts_spec k (S fuel + 4) n 0%nat ltac:(lia) ltac:(lia)) as (r & l & E1 & F & C & R). rewrite E1 in H. cbn [obind fst snd] in H.
  destruct r.
  - change (resume i (Nat.iter k (resume i) (start_iterator i))) with (Nat.iter (S k) (resume i) (start_iterator i)) in H.
    destruct (petsc_loop world args_of program rank_per mpi fuel i (Nat.iter (S k) (resume i) (start_iterator i)) (n + length l)) as [[max' runs']| | |] eqn:E2; try discriminate H.
    cbn [obind fst snd] in H. injection H as <- <-. destruct (IH _ _ _ _ E2) as (S2 & d & done & final & A0 & A1 & A2 & A3 & A4 & A5).
    split; [now apply started_cons|]. exists (S d), ((kth_size i k, l) :: done), final. split; [lia|]. rewrite <- Nat.add_succ_comm. split; [exact A1|].
    split; [rewrite A2; reflexivity|]. split; [cbn [map fst seq]; now rewrite A3|]. split; [constructor; [exact R|exact A4]|exact A5].
  - injection H as <- <-. split; [apply started_cons; [exact F|exact C|apply started_nil]|]. exists 0%nat, [], l. rewrite Nat.add_0_r. split; [lia|].
    split; [reflexivity|]. split; [reflexivity|]. split; [reflexivity|]. split; [constructor|exact R].
Qed.
Lemma petsc_ends K : (forall k n, (K <= k)%nat -> ran_out_of_memory (world n (command_of (kth_size i k)))) -> forall d k fuel n, (K <= k + d)%nat -> (d < fuel)%nat -> exists r,
  petsc_loop world args_of program rank_per mpi fuel i (Nat.iter k (resume i) (start_iterator i)) n = Ok r.
Proof.
  intros HK. induction d as [|d IH]; intros k fuel n Hk Hf; (destruct fuel as [|fuel]; [lia|]); cbn [petsc_loop]; fold (kth_size i k).
  - destruct (command_split k) as (args & Ha & Hc). change (S fuel + 4)%nat with (S (fuel + 4)). cbn [petsc_attempts]. rewrite Ha. cbn [obind]. rewrite Hc. cbn [obind].
    rewrite (proj2 (oom_spec _)) by (apply HK; lia). cbn [obind fst]. eexists; reflexivity.
  - destruct (@petsc_attempts_spec k (S fuel + 4) n 0%nat ltac:(lia) ltac:(lia)) as (r & l & E1 & F & C & R). rewrite E1. cbn [obind fst snd].
    destruct r; [|eexists; reflexivity].
    change (resume i (Nat.iter k (resume i) (start_iterator i))) with (Nat.iter (S k) (resume i) (start_iterator i)).
    destruct (IH (S k) fuel (n + length l)%nat ltac:(lia) ltac:(lia)) as [r E]. rewrite E. cbn [obind]. eexists; reflexivity.
Qed.
End Loops.

(** ** The three benchmark functions *)
(** the commands; [the] reads off the value of an operation that succeeds *)
Definition the (o : outcome (list string)) : list string := match o with Ok l => l | _ => [] end.
Definition petsc_command (t : laplacian) (m : method) (s : problem_size) : list string :=
  the (do args <- petsc_args (peer_name t) s (petsc_method m); jsrun_command petsc_program args "gpu" true).
Definition trilinos_command (t : laplacian) (m : method) (s : problem_size) : list string :=
  the (do args <- trilinos_args (peer_name t) s (trilinos_method m); jsrun_command trilinos_program args "gpu" true).
Definition legion_command (file : script_file) (nodes : Z) (t : laplacian) (m : method) (s : problem_size) : list string :=
  the (do args <- legion_solvers_args file nodes (legion_name t) s (legion_method m); jsrun_command legion_program args "node" false).
Lemma petsc_commands t m k : (do args <- petsc_args (peer_name t) (kth_size (sizes_of t) k) (petsc_method m); jsrun_command petsc_program args "gpu" true) = Ok (petsc_command t m (kth_size (sizes_of t) k)).
Proof. unfold petsc_command. destruct (petsc_reads t m _ (kth_matches t k)) as (args & E & _). rewrite E. reflexivity. Qed.
Lemma trilinos_commands t m k : (do args <- trilinos_args (peer_name t) (kth_size (sizes_of t) k) (trilinos_method m); jsrun_command trilinos_program args "gpu" true) = Ok (trilinos_command t m (kth_size (sizes_of t) k)).
Proof. unfold trilinos_command. destruct (trilinos_reads t m _ (kth_matches t k)) as (args & E & _). rewrite E. reflexivity. Qed.
Lemma legion_commands file nodes t m k : (do args <- legion_solvers_args file nodes (legion_name t) (kth_size (sizes_of t) k) (legion_method m); jsrun_command legion_program args "node" false) = Ok (legion_command file nodes t m (kth_size (sizes_of t) k)).
Proof. unfold legion_command. destruct (legion_reads file nodes t m _ (kth_matches t k)) as (args & o & E & _). rewrite E. reflexivity. Qed.

Lemma petsc_limit_fuel world t m fuel n max runs :
  benchmark_petsc world fuel (peer_name t) (petsc_method m) (sizes_of t) n = Ok (max, runs) ->
  started_as world (petsc_command t m) n runs /\ exists M, (M < fuel)%nat /\ max = kth_size (sizes_of t) M /\ petsc_record (sizes_of t) M runs.
Proof.
  intros H. destruct (@petsc_from world (fun s => petsc_args (peer_name t) s (petsc_method m)) _ _ _ (petsc_command t m) (sizes_of t) (petsc_commands t m) fuel 0%nat n max runs H) as (S1 & d & done & final & A0 & A1 & A2 & A3 & A4 & A5). cbn [Nat.add] in *.
  split; [exact S1|]. exists d. split; [exact A0|]. split; [exact A1|]. exists done, final. auto.
Qed.
(** PETSc: what is returned is the first size that could not be run: all smaller ones finished, after at most four failures each. *)
Theorem C92_petsc_limit : forall world t m fuel n max runs,
  benchmark_petsc world fuel (peer_name t) (petsc_method m) (sizes_of t) n = Ok (max, runs) ->
  started_as world (petsc_command t m) n runs /\ exists M, max = kth_size (sizes_of t) M /\ petsc_record (sizes_of t) M runs.
Proof. intros world t m fuel n max runs H. destruct (petsc_limit_fuel _ _ _ _ _ H) as (S1 & M & _ & R). split; [exact S1|]. exists M. exact R. Qed.
(** ... and if memory is finite the search ends. *)
Theorem C92_petsc_ends : forall world t m n K,
  (forall k j, (K <= k)%nat -> ran_out_of_memory (world j (petsc_command t m (kth_size (sizes_of t) k)))) ->
  exists r, forall fuel, (K < fuel)%nat -> benchmark_petsc world fuel (peer_name t) (petsc_method m) (sizes_of t) n = Ok r.
Proof.
  intros world t m n K HK. unfold benchmark_petsc.
  assert (mono : forall i args_of p q b fuel g n r, petsc_loop world args_of p q b fuel i g n = Ok r -> petsc_loop world args_of p q b (S fuel) i g n = Ok r).
  { intros i args_of p q b.
    assert (am : forall fuel n tries s r, petsc_attempts world args_of p q b fuel n tries s = Ok r -> petsc_attempts world args_of p q b (S fuel) n tries s = Ok r).
    { induction fuel as [|fuel IH]; intros n0 tries s r H; [discriminate H|]. cbn [petsc_attempts] in H. remember (S fuel) as f eqn:Ef. cbn [petsc_attempts]. destruct (args_of s) as [args| | |]; try discriminate H. cbn [obind] in *.
      destruct (jsrun_command p args q b) as [c| | |]; try discriminate H. cbn [obind] in *.
      destruct (out_of_memory (world n0 c)); [exact H|]. destruct (Z.eqb (e_code (world n0 c)) 0); [exact H|]. destruct (Nat.leb 5 (tries + 1)); [exact H|].
      destruct (petsc_attempts world args_of p q b fuel (S n0) (tries + 1) s) as [r'| | |] eqn:E; try discriminate H. apply IH in E. rewrite E. exact H. }
    induction fuel as [|fuel IH]; intros g n0 r H; [discriminate H|]. cbn [petsc_loop] in H.
    destruct (petsc_attempts world args_of p q b (S fuel + 4) n0 0 (yields i g)) as [[a l]| | |] eqn:E; try discriminate H. apply am in E.
    change (petsc_loop world args_of p q b (S (S fuel)) i g n0) with
      (do r0 <- petsc_attempts world args_of p q b (S (S fuel + 4)) n0 0 (yields i g);
       match fst r0 with Stop => Ok (yields i g, [(yields i g, snd r0)])
       | GoOn => do r' <- petsc_loop world args_of p q b (S fuel) i (resume i g) (n0 + length (snd r0)); Ok (fst r', (yields i g, snd r0) :: snd r') end).
    rewrite E. cbn [obind fst snd] in *. destruct a; [|exact H].
    destruct (petsc_loop world args_of p q b fuel i (resume i g) (n0 + length l)) as [r'| | |] eqn:E2; try discriminate H. apply IH in E2. rewrite E2. exact H. }
  destruct (@petsc_ends world (fun s => petsc_args (peer_name t) s (petsc_method m)) _ _ _ (petsc_command t m) (sizes_of t) (petsc_commands t m) K HK K 0%nat (S K) n ltac:(lia) ltac:(lia)) as [r E]. exists r.
  intros fuel Hf. replace fuel with ((fuel - S K) + S K)%nat by lia. induction (fuel - S K)%nat as [|d IH]; [exact E|]. cbn [Nat.add]. apply mono. exact IH.
Qed.
(** Trilinos and LegionSolvers, given the size number M as the limit: they always end, and run the sizes below the limit in order, each until it succeeds; five
    failures at one size end the run.  Nothing is run at the limit or above. *)
Theorem C92_trilinos_runs : forall world t m fuel n M, (M < fuel)%nat -> exists runs,
  benchmark_trilinos world fuel (peer_name t) (trilinos_method m) (sizes_of t) (kth_size (sizes_of t) M) n = Ok runs /\
  started_as world (trilinos_command t m) n runs /\ bounded_record (sizes_of t) M runs.
Proof. intros world t m fuel n M H. exact (@bounded_spec world (fun s => trilinos_args (peer_name t) s (trilinos_method m)) _ _ _ (trilinos_command t m) (sizes_of t) (trilinos_commands t m) M fuel n H). Qed.
Theorem C92_legion_runs : forall world file nodes t m fuel n M, (M < fuel)%nat -> exists runs,
  benchmark_legion_solvers world file nodes fuel (legion_name t) (legion_method m) (sizes_of t) (kth_size (sizes_of t) M) n = Ok runs /\
  started_as world (legion_command file nodes t m) n runs /\ bounded_record (sizes_of t) M runs.
Proof. intros world file nodes t m fuel n M H. exact (@bounded_spec world (fun s => legion_solvers_args file nodes (legion_name t) s (legion_method m)) _ _ _ (legion_command file nodes t m) (sizes_of t) (legion_commands file nodes t m) M fuel n H). Qed.
(** a limit that is not one of the sizes would be missed: the loop then goes on as long as the runs succeed *)
Theorem C92_limit_must_be_a_size : forall world file nodes t m max fuel n, (forall k, kth_size (sizes_of t) k <> max) -> (forall j c, success (world j c)) ->
  benchmark_legion_solvers world file nodes fuel (legion_name t) (legion_method m) (sizes_of t) max n = OutOfFuel.
Proof.
  intros world file nodes t m max fuel n Hm Hw. unfold benchmark_legion_solvers.
  change (start_iterator (sizes_of t)) with (Nat.iter 0 (resume (sizes_of t)) (start_iterator (sizes_of t))). exact (@bounded_never world (fun s => legion_solvers_args file nodes (legion_name t) s (legion_method m)) _ _ _ (legion_command file nodes t m) (sizes_of t) (legion_commands file nodes t m) max Hm Hw fuel 0%nat n).
Qed.

(** ** The scripts *)
(** the twelve combinations, in the order of the scripts *)
Definition combinations : list (laplacian * method) :=
  let all := [LAPLACIAN_1D_3POINT; LAPLACIAN_2D_5POINT; LAPLACIAN_3D_7POINT; LAPLACIAN_3D_27POINT] in
  map (fun t => (t, CG)) all ++ map (fun t => (t, BICGSTAB)) all ++ map (fun t => (t, GMRES)) all.
Lemma petsc_runs_named : petsc_runs = map (fun c => (peer_name (fst c), petsc_method (snd c), sizes_of (fst c))) combinations.
Proof. reflexivity. Qed.
Lemma trilinos_runs_named : trilinos_runs = map (fun c => (peer_name (fst c), trilinos_method (snd c), sizes_of (fst c))) combinations.
Proof. reflexivity. Qed.
Lemma legion_runs_named : legion_runs = map (fun c => (legion_name (fst c), legion_method (snd c), sizes_of (fst c))) combinations.
Proof. reflexivity. Qed.

Lemma run_petsc_spec world fuel : forall cs n r, run_petsc world fuel (map (fun c => (peer_name (fst c), petsc_method (snd c), sizes_of (fst c))) cs) n = Ok r ->
  Forall2 (fun c pr => exists n' M, (M < fuel)%nat /\ started_as world (petsc_command (fst c) (snd c)) n' (snd pr) /\
    fst pr = kth_size (sizes_of (fst c)) M /\ petsc_record (sizes_of (fst c)) M (snd pr)) cs (fst r).
Proof.
  induction cs as [|[t m] cs IH]; intros n r H; cbn [map run_petsc fst snd] in H.
  - injection H as <-. constructor.
  - destruct (benchmark_petsc world fuel (peer_name t) (petsc_method m) (sizes_of t) n) as [[max runs]| | |] eqn:E; try discriminate H. cbn [obind snd] in H.
    destruct (run_petsc world fuel _ (n + processes_of runs)) as [r'| | |] eqn:E2; try discriminate H. cbn [obind] in H. injection H as <-. cbn [fst]. constructor.
    + destruct (petsc_limit_fuel _ _ _ _ _ E) as (S1 & M & H1 & H2 & H3). exists n, M. auto.
    + eapply IH, E2.
Qed.
Lemma run_bounded_spec world fuel (dims solvers : laplacian * method -> string) (command : laplacian * method -> problem_size -> list string) bench :
  (forall c n M, (M < fuel)%nat -> exists runs, bench (dims c) (solvers c) (sizes_of (fst c)) (kth_size (sizes_of (fst c)) M) n = Ok runs /\
     started_as world (command c) n runs /\ bounded_record (sizes_of (fst c)) M runs) ->
  forall cs Ms n, length Ms = length cs -> Forall (fun M => (M < fuel)%nat) Ms ->
  exists r, run_bounded bench (combine (map (fun c => (dims c, solvers c, sizes_of (fst c))) cs) (map (fun cM => kth_size (sizes_of (fst (fst cM))) (snd cM)) (combine cs Ms))) n = Ok r /\
    Forall2 (fun cM runs => exists n', started_as world (command (fst cM)) n' runs /\ bounded_record (sizes_of (fst (fst cM))) (snd cM) runs) (combine cs Ms) r.
Proof.
  intros Hb. induction cs as [|c cs IH]; intros Ms n HL HM; destruct Ms as [|M Ms]; try discriminate HL; cbn [map combine run_bounded fst snd].
  - exists []. split; [reflexivity|constructor].
  - inversion HM; subst. destruct (Hb c n M) as (runs & E & S1 & R); [assumption|]. rewrite E. cbn [obind].
    destruct (IH Ms (n + processes_of runs)%nat ltac:(cbn in HL; lia) ltac:(assumption)) as (r & E2 & F). rewrite E2. cbn [obind]. exists (runs :: r). split; [reflexivity|].
    constructor; [exists n; auto|exact F].
Qed.

(** bench_all.py, if it ends: for each of the twelve combinations there is a number M such that PETSc finished the sizes 0, ..., M-1 and reached its limit at size M, and
    Trilinos was run on these sizes (or stopped earlier after five failures), on nothing larger. *)
Theorem C92_bench_all : forall world fuel petsc trilinos, bench_all world fuel = Ok (petsc, trilinos) ->
  length petsc = 12%nat /\ length trilinos = 12%nat /\
  Forall2 (fun c r => exists M n n', fst (fst r) = kth_size (sizes_of (fst c)) M /\
    petsc_record (sizes_of (fst c)) M (snd (fst r)) /\ started_as world (petsc_command (fst c) (snd c)) n (snd (fst r)) /\
    bounded_record (sizes_of (fst c)) M (snd r) /\ started_as world (trilinos_command (fst c) (snd c)) n' (snd r)) combinations (combine petsc trilinos).
Proof.
  intros world fuel petsc trilinos H. unfold bench_all in H. rewrite petsc_runs_named, trilinos_runs_named in H.
  destruct (run_petsc world fuel _ 0) as [[ps n]| | |] eqn:E; try discriminate H. cbn [obind fst snd] in H. apply run_petsc_spec in E. cbn [fst] in E.
  destruct (run_bounded _ _ n) as [tr| | |] eqn:E2; try discriminate H. cbn [obind] in H. injection H as <- <-.
  assert (L : length ps = 12%nat) by (symmetry; change 12%nat with (length combinations); clear -E; induction E; cbn [length]; lia).
  assert (Ms : exists Ms, length Ms = length combinations /\ Forall (fun M => (M < fuel)%nat) Ms /\ map fst ps = map (fun cM => kth_size (sizes_of (fst (fst cM))) (snd cM)) (combine combinations Ms) /\
     Forall2 (fun cM pr => exists n', started_as world (petsc_command (fst (fst cM)) (snd (fst cM))) n' (snd pr) /\ fst pr = kth_size (sizes_of (fst (fst cM))) (snd cM) /\
       petsc_record (sizes_of (fst (fst cM))) (snd cM) (snd pr)) (combine combinations Ms) ps).
  { clear -E. induction E as [|c pr cs ps (n' & M & H1 & H2 & H3 & H4) _ IH]; [exists []; repeat split; constructor|]. destruct IH as (Ms & A1 & A2 & A3 & A4).
    exists (M :: Ms). split; [cbn; lia|]. split; [constructor; assumption|]. split; [cbn [map combine fst snd]; rewrite H3, A3; reflexivity|].
    cbn [combine]. constructor; [exists n'; auto|exact A4]. }
  destruct Ms as (Ms & LM & HM & EM & FM). rewrite EM in E2.
  destruct (@run_bounded_spec world fuel (fun c => peer_name (fst c)) (fun c => trilinos_method (snd c)) (fun c => trilinos_command (fst c) (snd c)) (benchmark_trilinos world fuel)
    ltac:(intros [t m] n0 M HMf; apply C92_trilinos_runs; exact HMf) combinations Ms n LM HM) as (tr' & E3 & F3). rewrite E3 in E2. injection E2 as ->.
  assert (LC : length (combine combinations Ms) = 12%nat) by (rewrite combine_length, LM; reflexivity).
  assert (L3 : length tr = 12%nat) by (rewrite <- LC; symmetry; clear -F3; induction F3; cbn [length]; lia).
  split; [exact L|]. split; [exact L3|].
  clear -LM FM F3. revert Ms ps tr LM FM F3. induction combinations as [|c cs IH]; intros Ms ps tr LM FM F3; destruct Ms as [|M Ms]; try discriminate LM; cbn [combine] in *;
    inversion FM as [|? pr ? ps' (n & A1 & A2 & A3) A4]; subst; inversion F3 as [|? run ? tr' (n' & B1 & B2) B3]; subst; [constructor|]. cbn [combine fst snd] in *.
  constructor; [|apply (IH Ms); [cbn in LM; lia|exact A4|exact B3]]. exists M, n, n'. cbn [fst snd]. auto.
Qed.
(** With finite memory it ends. *)
Theorem C92_bench_all_ends : forall world K,
  (forall t m k j, (K <= k)%nat -> ran_out_of_memory (world j (petsc_command t m (kth_size (sizes_of t) k)))) ->
  exists r, bench_all world (S K) = Ok r.
Proof.
  intros world K HK. unfold bench_all. rewrite petsc_runs_named, trilinos_runs_named.
  assert (P : forall cs n, exists r, run_petsc world (S K) (map (fun c => (peer_name (fst c), petsc_method (snd c), sizes_of (fst c))) cs) n = Ok r).
  { induction cs as [|[t m] cs IH]; intros n; cbn [map run_petsc fst snd]; [eexists; reflexivity|].
    destruct (@C92_petsc_ends world t m n K) as [r E]; [intros; now apply HK|]. rewrite E by lia. cbn [obind]. destruct (IH (n + processes_of (snd r))%nat) as [r' E']. rewrite E'. eexists; reflexivity. }
  destruct (P combinations 0%nat) as [[ps n] E]. rewrite E. cbn [obind fst snd]. apply run_petsc_spec in E. cbn [fst] in E.
  assert (Ms : exists Ms, length Ms = length combinations /\ Forall (fun M => (M < S K)%nat) Ms /\ map fst ps = map (fun cM => kth_size (sizes_of (fst (fst cM))) (snd cM)) (combine combinations Ms)).
  { clear -E. induction E as [|c pr cs ps (n' & M & H1 & H2 & H3 & H4) _ IH]; [exists []; repeat split; constructor|]. destruct IH as (Ms & A1 & A2 & A3).
    exists (M :: Ms). split; [cbn; lia|]. split; [constructor; assumption|]. cbn [map combine fst snd]. rewrite H3, A3. reflexivity. }
  destruct Ms as (Ms & LM & HM & EM). rewrite EM.
  destruct (@run_bounded_spec world (S K) (fun c => peer_name (fst c)) (fun c => trilinos_method (snd c)) (fun c => trilinos_command (fst c) (snd c)) (benchmark_trilinos world (S K))
    ltac:(intros [t m] n0 M HMf; apply C92_trilinos_runs; exact HMf) combinations Ms n LM HM) as (tr' & E3 & F3). rewrite E3. eexists; reflexivity.
Qed.

(** *** bench_all_ls.py *)
(** the numbers of nodes the script knows: 1, 2, 4, ..., 256 *)
Definition known_nodes (nodes : Z) : Prop := exists e, (0 <= e <= 8)%Z /\ nodes = (2 ^ e)%Z.
Lemma known_cases nodes : known_nodes nodes <-> In nodes [1; 2; 4; 8; 16; 32; 64; 128; 256]%Z.
Proof.
  split.
  - intros (e & He & ->). assert (C : (e = 0 \/ e = 1 \/ e = 2 \/ e = 3 \/ e = 4 \/ e = 5 \/ e = 6 \/ e = 7 \/ e = 8)%Z) by lia.
    repeat (destruct C as [-> |C]; [cbn; tauto|]). subst e. cbn. tauto.
  - intros H. cbn [In] in H. repeat (destruct H as [<-|H]; [|]); try contradiction;
      [exists 0%Z|exists 1%Z|exists 2%Z|exists 3%Z|exists 4%Z|exists 5%Z|exists 6%Z|exists 7%Z|exists 8%Z]; (split; [lia|reflexivity]).
Qed.
(** Every limit in the table is one of the sizes of its iterator; other numbers of nodes end the script with an exception before anything is run. *)
Theorem C92_limit_table : forall nodes,
  (known_nodes nodes -> exists l, max_problem_sizes nodes = Ok l /\ Forall2 (fun c s => exists M, (M <= 25)%nat /\ s = kth_size (sizes_of (fst c)) M) combinations l) /\
  (~ known_nodes nodes -> forall world fuel, bench_all_ls world fuel nodes = AssertFail).
Proof.
  intros nodes. split.
  - intros H. apply known_cases in H. unfold combinations. cbn [map app].
    assert (P : forall t s M, (M <= 25)%nat -> s = kth_size (sizes_of t) M -> exists M, (M <= 25)%nat /\ s = kth_size (sizes_of t) M) by (intros t s M H1 H2; exists M; auto).
    cbn [In] in H. repeat (destruct H as [<-|H]; [eexists; split; [vm_compute; reflexivity|]; cbn [fst];
      repeat (constructor; [match goal with |- exists M, _ /\ ?s = _ => apply (P _ s (Z.to_nat (Z.log2 (grid_points s) - 12))); [vm_compute; lia|vm_compute; reflexivity] end|]); constructor|]). contradiction.
  - intros H world fuel. unfold bench_all_ls. replace (max_problem_sizes nodes) with (@AssertFail (list problem_size)); [reflexivity|].
    unfold max_problem_sizes. destruct (find _ max_problem_size_dict) as [[k l]|] eqn:E; [|reflexivity]. apply find_some in E. destruct E as [E1 E2]. cbn [fst] in E2. apply Z.eqb_eq in E2. subst k.
    exfalso. apply H, known_cases. apply (in_map fst) in E1. exact E1.
Qed.
(** On 1, 2, 4, ..., 256 nodes bench_all_ls.py always ends; LegionSolvers is run on exactly the sizes below the limit of the table, each until it succeeds, unless five
    processes in a row fail at one size. *)
Theorem C92_bench_all_ls : forall world fuel nodes, known_nodes nodes -> (26 <= fuel)%nat -> exists l runs,
  max_problem_sizes nodes = Ok l /\ bench_all_ls world fuel nodes = Ok runs /\ length runs = 12%nat /\
  Forall2 (fun cs r => exists M n, snd cs = kth_size (sizes_of (fst (fst cs))) M /\ bounded_record (sizes_of (fst (fst cs))) M r /\
    started_as world (legion_command bench_all_ls_py nodes (fst (fst cs)) (snd (fst cs))) n r) (combine combinations l) runs.
Proof.
  intros world fuel nodes Hn Hf. destruct (proj1 (C92_limit_table nodes) Hn) as (l & El & Fl). exists l. unfold bench_all_ls. rewrite El. cbn [obind]. rewrite legion_runs_named.
  assert (Ms : exists Ms, length Ms = length combinations /\ Forall (fun M => (M < fuel)%nat) Ms /\ l = map (fun cM => kth_size (sizes_of (fst (fst cM))) (snd cM)) (combine combinations Ms)).
  { clear -Fl Hf. induction Fl as [|c s cs l (M & H1 & H2) _ IH]; [exists []; repeat split; constructor|]. destruct IH as (Ms & A1 & A2 & A3).
    exists (M :: Ms). split; [cbn; lia|]. split; [constructor; [lia|assumption]|]. cbn [map combine fst snd]. rewrite H2, A3 at 1. reflexivity. }
  destruct Ms as (Ms & LM & HM & EM). rewrite EM.
  destruct (@run_bounded_spec world fuel (fun c => legion_name (fst c)) (fun c => legion_method (snd c)) (fun c => legion_command bench_all_ls_py nodes (fst c) (snd c))
    (benchmark_legion_solvers world bench_all_ls_py nodes fuel)
    ltac:(intros [t m] n0 M HMf; apply C92_legion_runs; exact HMf) combinations Ms 0%nat LM HM) as (r & E3 & F3). rewrite E3. exists r. split; [reflexivity|]. split; [reflexivity|].
  assert (LC : length (combine combinations Ms) = 12%nat) by (rewrite combine_length, LM; reflexivity).
  split; [rewrite <- LC; symmetry; clear -F3; induction F3; cbn [length]; lia|].
  clear -LM F3. revert Ms r LM F3. induction combinations as [|c cs IH]; intros Ms r LM F3; destruct Ms as [|M Ms]; try discriminate LM; cbn [combine map] in *;
    inversion F3 as [|? run ? r' (n & B1 & B2) B3]; subst; [constructor|]. cbn [fst snd] in *.
  constructor; [|apply (IH Ms); [cbn in LM; lia|exact B3]]. exists M, n. cbn [fst snd]. auto.
Qed.

(** ** Examples *)
(** the third process fails, the fifth runs out of memory: sizes 2^12 and 2^13 at once, 2^14 at the second attempt, 2^15 is the limit *)
Definition some_world (n : nat) (c : list string) : ended :=
  mk_ended (if Nat.eqb n 4 then "cuda: out of memory!" else "") (if Nat.eqb n 2 then 1%Z else 0%Z).
Example C92_example :
  (exists runs, benchmark_petsc some_world 9 "1D" "cg" Iter1 0 = Ok (Size1 (2 ^ 15), runs) /\ map (fun r => length (snd r)) runs = [1; 1; 2; 1]%nat) /\
  (exists runs, benchmark_trilinos some_world 9 "1D" "CG" Iter1 (Size1 (2 ^ 15)) 5 = Ok runs /\ map fst runs = [Size1 4096; Size1 8192; Size1 16384]) /\
  ran_out_of_memory (some_world 4 []) /\ known_nodes 64 /\ ~ known_nodes 3 /\ length combinations = 12%nat.
Proof.
  split; [eexists; split; vm_compute; reflexivity|]. split; [eexists; split; vm_compute; reflexivity|]. split; [exists "cuda: ", "!"; reflexivity|].
  split; [exists 6%Z; split; [lia|reflexivity]|]. split; [rewrite known_cases; cbn; lia|reflexivity].
Qed.
