(** Launch: storage locations, Legion handles, region requirements and launches. *)
From Verif Require Import Base Index Outcome Sched Async.
Set Implicit Arguments.

(** A storage location: element [p] of field [fid] of logical region [region]; the value of future [n];
    or the partial result of colour [c] of the reduction that produces future [n] (Legion-internal). *)
Inductive loc := LVec (region fid : nat) (p : point) | LFut (n : nat) | LPart (n c : nat).

Definition point_eq_dec : forall p q : point, {p = q} + {p <> q} := list_eq_dec Z.eq_dec.
Definition loc_dec : forall a b : loc, {a = b} + {a <> b}.
Proof. decide equality; try apply Nat.eq_dec. apply point_eq_dec. Defined.
Definition mem (p : point) (ps : list point) : bool := if in_dec point_eq_dec p ps then true else false.

(** The Legion runtime's view of index spaces and partitions; handles are numbers.
    - [is_points s]: the points of index space [s];
    - [part_parent q] = get_parent_index_space(q); [part_colors q] = get_index_partition_color_space_name(q);
    - [part_pieces q]: the sub-space of each colour, as the sequence in which
      RectInDomainIterator/PointInRectIterator enumerate it.
    Legion index spaces and partitions never change after creation. *)
Record legion := mk_legion {
  is_points : nat -> list point;
  part_parent : nat -> nat;
  part_colors : nat -> nat;
  part_pieces : nat -> list (list point) }.

(** is_index_partition_disjoint / is_index_partition_complete (Legion contract): no point in two pieces /
    every point of the parent space in some piece. *)
Fixpoint disjoint_all (pieces : list (list point)) : bool :=
  match pieces with
  | [] => true
  | piece :: rest =>
      forallb (fun p => forallb (fun other => negb (mem p other)) rest) piece && disjoint_all rest
  end.
Definition is_disjoint (lg : legion) (q : nat) : bool := disjoint_all (part_pieces lg q).
Definition is_complete (lg : legion) (q : nat) : bool :=
  forallb (fun p => existsb (mem p) (part_pieces lg q)) (is_points lg (part_parent lg q)).

(** Legion invariants: a space or piece enumerates each of its points once, and a piece is a subset of the
    parent space. *)
Definition legion_ok (lg : legion) : Prop :=
  (forall s, NoDup (is_points lg s)) /\
  (forall q piece, In piece (part_pieces lg q) -> NoDup piece /\ incl piece (is_points lg (part_parent lg q))).

(** Privileges (LEGION_READ_ONLY, LEGION_READ_WRITE, LEGION_WRITE_DISCARD). *)
Inductive privilege := READ_ONLY | READ_WRITE | WRITE_DISCARD.
Definition may_read (pr : privilege) : bool := match pr with WRITE_DISCARD => false | _ => true end.
Definition may_write (pr : privilege) : bool := match pr with READ_ONLY => false | _ => true end.
(** Legion::RegionRequirement over a partition with the identity projection: point task [c] gets the [c]-th
    piece (PartitionedVector::get_requirement, /repo/src/PartitionedVector.cpp:131-147). *)
Record requirement := mk_req { rq_region : nat; rq_fid : nat; rq_pieces : list (list point); rq_priv : privilege }.

Section Launch.
Variable T : Type.
Notation step := (step loc T).

(** An index launch (IndexTaskLauncher / IndexFillLauncher / IndexCopyLauncher / IndexLauncher): one task per
    colour, region requirements, the futures passed with add_future, the future it produces, and the
    reduction partials it reads / writes. *)
Record launch := mk_launch {
  ln_tasks : list (list step);
  ln_reqs : list requirement;
  ln_futs : list nat;
  ln_result : option nat;
  ln_parts_in : list (nat * nat);
  ln_parts_out : list (nat * nat) }.

Definition req_allows (ok : privilege -> bool) (reqs : list requirement) (r f : nat) (p : point) : Prop :=
  exists rq, In rq reqs /\ rq_region rq = r /\ rq_fid rq = f /\ ok (rq_priv rq) = true /\ In p (concat (rq_pieces rq)).
(** What a launch declares. *)
Definition declared_reads (ln : launch) (l : loc) : Prop :=
  match l with
  | LVec r f p => req_allows may_read (ln_reqs ln) r f p
  | LFut n => In n (ln_futs ln)
  | LPart n c => In (n, c) (ln_parts_in ln)
  end.
Definition declared_writes (ln : launch) (l : loc) : Prop :=
  match l with
  | LVec r f p => req_allows may_write (ln_reqs ln) r f p
  | LFut n => ln_result ln = Some n
  | LPart n c => In (n, c) (ln_parts_out ln)
  end.
Definition op_of (ln : launch) : op loc T := mk_op (ln_tasks ln) (declared_reads ln) (declared_writes ln).

(** Two requirements of ONE launch on the same field of the same region, one of them writing: Legion reports
    interfering region requirements (an error; [UB] in the model). *)
Definition reqs_alias (a b : requirement) : bool :=
  (rq_region a =? rq_region b) && (rq_fid a =? rq_fid b) && (may_write (rq_priv a) || may_write (rq_priv b)).
Fixpoint interfering (reqs : list requirement) : bool :=
  match reqs with
  | [] => false
  | rq :: rest => existsb (reqs_alias rq) rest || interfering rest
  end.
(** rt->execute_index_space / issue_copy_operation / fill_fields *)
Definition submit (ln : launch) : outcome launch := if interfering (ln_reqs ln) then UB else Ok ln.

(** Per-task privileges: task [c] reads and writes only its own pieces ([nth c]), as declared. *)
Definition task_read_ok (ln : launch) (c : nat) (l : loc) : Prop :=
  match l with
  | LVec r f p => exists rq piece, In rq (ln_reqs ln) /\ rq_region rq = r /\ rq_fid rq = f /\
                    may_read (rq_priv rq) = true /\ nth_error (rq_pieces rq) c = Some piece /\ In p piece
  | LFut n => In n (ln_futs ln)
  | LPart n k => In (n, k) (ln_parts_in ln)
  end.
Definition task_write_ok (ln : launch) (c : nat) (l : loc) : Prop :=
  match l with
  | LVec r f p => exists rq piece, In rq (ln_reqs ln) /\ rq_region rq = r /\ rq_fid rq = f /\
                    may_write (rq_priv rq) = true /\ nth_error (rq_pieces rq) c = Some piece /\ In p piece
  | LFut n => ln_result ln = Some n
  | LPart n k => In (n, k) (ln_parts_out ln)
  end.
Definition privileges_respected (ln : launch) : Prop :=
  forall c t st, nth_error (ln_tasks ln) c = Some t -> In st t ->
    task_write_ok ln c (tgt st) /\ forall l, In l (rds st) -> task_read_ok ln c l.
End Launch.
Arguments mk_launch {T}.
Arguments ln_tasks {T}.
Arguments ln_reqs {T}.
Arguments ln_futs {T}.
Arguments ln_result {T}.
