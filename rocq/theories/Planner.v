(** Planner: SquarePlanner (/repo/src/SquarePlanner.hpp).  Reference counting of the handles it keeps is in
    Ownership.v. *)
From Verif Require Import Base Index Outcome Sched Async Arith Launch Vector Matrix Builder.
Set Implicit Arguments.

(** The members: /repo/src/SquarePlanner.hpp:20-51.  tile_partitioned_matrices is never used by the code. *)
Record pl_matrix (T : Type) := mk_pl_matrix {
  pm_matrix : matrix T; pm_domain : nat; pm_range : nat;
  pm_kernel : list (list point);       (* kernel partition *)
  pm_ghost : list (list point) }.      (* ghost partition *)
Record planner (T : Type) := mk_planner {
  pl_spaces : list nat;                (* canonical_index_spaces *)
  pl_parts : list nat;                 (* canonical_index_partitions *)
  pl_fields : bool;                    (* workspace_fields != NO_SPACE *)
  pl_wregions : list nat;              (* workspace_regions *)
  pl_wparts : list (nat * nat);        (* workspace_partitions: (region, index partition) *)
  pl_sol : list pvec;
  pl_rhs : list pvec;
  pl_ws : list (list pvec);            (* workspace_vectors *)
  pl_mats : list (pl_matrix T) }.      (* row_partitioned_matrices *)

Section Planner.
Variable T : Type.
Variable A : arith T.
Variable lg : legion.
Variable reduction : nat -> list T -> T.
Notation M := (M T).
Notation planner := (planner T).

(** constructor: /repo/src/SquarePlanner.hpp:55-67 *)
Definition new_planner : planner := mk_planner [] [] false [] [] [] [] [] [].

Definition is_nil {X} (l : list X) : bool := match l with [] => true | _ => false end.
(** the four asserts at the head of add_sol_vector, add_rhs_vector and allocate_workspace (lines 100-103,
    127-130, 154-157) *)
Definition no_workspace (pl : planner) : bool :=
  negb (pl_fields pl) && is_nil (pl_wregions pl) && is_nil (pl_wparts pl) && is_nil (pl_ws pl).

(** the body shared by add_sol_vector and add_rhs_vector (lines 104-121, 131-148): the canonical lists after
    registering [v] as component number [idx] *)
Definition register_component (pl : planner) (idx : nat) (v : pvec) : outcome (list nat * list nat) :=
  do spaces <- (match nth_error (pl_spaces pl) idx with
                | Some s => oassert (s =? pv_space v) (Ok (pl_spaces pl))
                | None => oassert (length (pl_spaces pl) =? idx) (Ok (pl_spaces pl ++ [pv_space v]))
                end);
  do parts <- (match nth_error (pl_parts pl) idx with
               | Some q => oassert (q =? pv_part v) (Ok (pl_parts pl))
               | None => oassert (length (pl_parts pl) =? idx)
                           (oassert (is_complete lg (pv_part v)) (oassert (is_disjoint lg (pv_part v))
                             (Ok (pl_parts pl ++ [pv_part v]))))
               end);
  Ok (spaces, parts).
(** add_sol_vector: /repo/src/SquarePlanner.hpp:99-124; returns the component index *)
Definition add_sol_vector (pl : planner) (v : pvec) : outcome (planner * nat) :=
  oassert (no_workspace pl)
    (do (spaces, parts) <- register_component pl (length (pl_sol pl)) v;
     Ok (mk_planner spaces parts (pl_fields pl) (pl_wregions pl) (pl_wparts pl)
           (pl_sol pl ++ [v]) (pl_rhs pl) (pl_ws pl) (pl_mats pl), length (pl_sol pl))).
(** add_rhs_vector: /repo/src/SquarePlanner.hpp:126-151 *)
Definition add_rhs_vector (pl : planner) (v : pvec) : outcome (planner * nat) :=
  oassert (no_workspace pl)
    (do (spaces, parts) <- register_component pl (length (pl_rhs pl)) v;
     Ok (mk_planner spaces parts (pl_fields pl) (pl_wregions pl) (pl_wparts pl)
           (pl_sol pl) (pl_rhs pl ++ [v]) (pl_ws pl) (pl_mats pl), length (pl_rhs pl))).

(** allocate_workspace: /repo/src/SquarePlanner.hpp:153-188.  Space [i] gets a fresh region with fields
    0..num_vectors-1; workspace vector [j] uses field [j] of it. *)
Fixpoint workspace_rows (spaces parts : list nat) (num_vectors : nat) : M (list nat * list (list pvec)) :=
  match spaces, parts with
  | _ :: spaces', q :: parts' =>
      let* region := fresh_region in
      let* vs := lift (sequence (map (fun j => make_vector lg q region j) (seq 0 num_vectors))) in
      let* rest := workspace_rows spaces' parts' num_vectors in
      ret (region :: fst rest, vs :: snd rest)
  | _, _ => ret ([], [])
  end.
(** workspace_vectors[j] collects the j-th vector of every space *)
Definition column {X} (j : nat) (rows : list (list X)) : list X :=
  flat_map (fun row => match nth_error row j with Some v => [v] | None => [] end) rows.
Definition allocate_workspace (pl : planner) (num_vectors : nat) : M planner :=
  massert (no_workspace pl) ;;
  massert (length (pl_spaces pl) =? length (pl_parts pl)) ;;
  let* r := workspace_rows (pl_spaces pl) (pl_parts pl) num_vectors in
  ret (mk_planner (pl_spaces pl) (pl_parts pl) true (fst r) (combine (fst r) (pl_parts pl))
         (pl_sol pl) (pl_rhs pl) (map (fun j => column j (snd r)) (seq 0 num_vectors)) (pl_mats pl)).

(** get_num_spaces: /repo/src/SquarePlanner.hpp:190-207 *)
Definition get_num_spaces (pl : planner) : outcome nat :=
  let n := length (pl_spaces pl) in
  oassert (n =? length (pl_parts pl))
    (oassert (is_nil (pl_wregions pl) || (n =? length (pl_wregions pl)))
    (oassert (is_nil (pl_wparts pl) || (n =? length (pl_wparts pl)))
    (oassert (n =? length (pl_sol pl)) (oassert (n =? length (pl_rhs pl))
    (oassert (forallb (fun v => n =? length v) (pl_ws pl)) (Ok n)))))).

(** add_row_partitioned_matrix: /repo/src/SquarePlanner.hpp:209-235 *)
Definition add_row_partitioned_matrix (pl : planner) (m : matrix T) (domain_index range_index : nat) : outcome planner :=
  do n <- get_num_spaces pl;
  oassert (domain_index <? n) (oassert (range_index <? n)
    (match nth_error (pl_parts pl) range_index, nth_error (pl_spaces pl) domain_index with
     | Some q, Some space =>
         do kps <- kernel_from_range lg m q;
         Ok (mk_planner (pl_spaces pl) (pl_parts pl) (pl_fields pl) (pl_wregions pl) (pl_wparts pl)
               (pl_sol pl) (pl_rhs pl) (pl_ws pl)
               (pl_mats pl ++ [mk_pl_matrix m domain_index range_index kps (domain_from_kernel lg m space kps)]))
     | _, _ => UB
     end)).

(** the vector of number [vec_idx]: 0 = solution, 1 = right-hand side, 2.. = workspace *)
Definition vector_row (pl : planner) (vec_idx : nat) : outcome (list pvec) :=
  match vec_idx with
  | 0 => Ok (pl_sol pl)
  | 1 => Ok (pl_rhs pl)
  | S (S j) => match nth_error (pl_ws pl) j with Some vs => Ok vs | None => UB end
  end.
(** get_vector: /repo/src/SquarePlanner.hpp:237-246; std::vector::operator[] out of range is undefined *)
Definition get_vector (pl : planner) (vec_idx space_idx : nat) : outcome pvec :=
  do vs <- vector_row pl vec_idx;
  match nth_error vs space_idx with Some v => Ok v | None => UB end.

(** zero_fill: /repo/src/SquarePlanner.hpp:248-259 *)
Definition pl_zero_fill (pl : planner) (vec_idx : nat) : M unit :=
  let* vs := lift (vector_row pl vec_idx) in mfor vs (fun v => issue (zero_fill A lg v)).
(** the loop "for i < get_num_spaces()" of copy, scal, axpy, xpay *)
Definition for_spaces (pl : planner) (body : nat -> M unit) : M unit :=
  let* n := lift (get_num_spaces pl) in mfor (seq 0 n) body.
(** copy: /repo/src/SquarePlanner.hpp:261-266 *)
Definition pl_copy (pl : planner) (dst_index src_index : nat) : M unit :=
  for_spaces pl (fun i =>
    let* y := lift (get_vector pl dst_index i) in let* x := lift (get_vector pl src_index i) in
    issue (copy A lg y x)).
(** scal: /repo/src/SquarePlanner.hpp:268-273 *)
Definition pl_scal (pl : planner) (dst_index : nat) (alpha : scalar) : M unit :=
  for_spaces pl (fun i => let* x := lift (get_vector pl dst_index i) in issue (scal A lg x [alpha])).
(** axpy, three overloads (one, two, three scalars): /repo/src/SquarePlanner.hpp:275-308 *)
Definition pl_axpy (pl : planner) (dst_index : nat) (fs : list scalar) (src_index : nat) : M unit :=
  for_spaces pl (fun i =>
    let* y := lift (get_vector pl dst_index i) in let* x := lift (get_vector pl src_index i) in
    issue (axpy A lg y fs x)).
(** xpay, two overloads: /repo/src/SquarePlanner.hpp:310-329 *)
Definition pl_xpay (pl : planner) (dst_index : nat) (fs : list scalar) (src_index : nat) : M unit :=
  for_spaces pl (fun i =>
    let* y := lift (get_vector pl dst_index i) in let* x := lift (get_vector pl src_index i) in
    issue (xpay A lg y fs x)).
(** PartitionedVector::dot with a fresh future *)
Definition vector_dot (v w : pvec) : M scalar :=
  let* n := fresh_fut in issue_all (dot A lg reduction v w n) ;; ret n.
(** dot: /repo/src/SquarePlanner.hpp:331-338 (component 0 is accessed even when there is none: undefined) *)
Definition component_dot (pl : planner) (v_idx w_idx i : nat) : M scalar :=
  let* v := lift (get_vector pl v_idx i) in let* w := lift (get_vector pl w_idx i) in vector_dot v w.
Definition pl_dot (pl : planner) (v_idx w_idx : nat) : M scalar :=
  let* n := lift (get_num_spaces pl) in
  let* first := component_dot pl v_idx w_idx 0 in
  mfold (seq 1 (n - 1)) first (fun result i =>
    let* d := component_dot pl v_idx w_idx i in scalar_add A result d).
(** matvec: /repo/src/SquarePlanner.hpp:340-357 *)
Definition pl_matvec (pl : planner) (dst_idx src_idx : nat) : M unit :=
  pl_zero_fill pl dst_idx ;;
  mfor (pl_mats pl) (fun pm =>
    let* y := lift (get_vector pl dst_idx (pm_range pm)) in
    let* x := lift (get_vector pl src_idx (pm_domain pm)) in
    issue (matvec A lg (pm_matrix pm) y x (pm_kernel pm) (pm_ghost pm))).
End Planner.
