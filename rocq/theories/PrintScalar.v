(** PrintScalar: Scalar::print (/repo/src/Scalar.cpp:96-118) and PrintScalarTask (/repo/src/UtilityTasks.cpp:25-31), print_index_partition
    (/repo/src/LegionUtilities.cpp:24-70) and PrintIndexTask (/repo/src/UtilityTasks.cpp:102-126), and what an execution shows on standard output.
    SIMPLIFICATION: a printed line is the data it shows; number formatting is not modelled.  The int future returned by PrintScalarTask (always 0) is
    represented by a future that records the value shown; no code reads it except as a dependence (the [dummy] of the second overload). *)
From Verif Require Import Base Index Outcome Sched Async Arith Launch Vector Builder.
Set Implicit Arguments.

Section PrintScalar.
Variable T : Type.
Variable A : arith T.
Notation M := (M T).
Notation step := (step loc T).
(** PrintScalarTask body: shows futures[0], with one or two futures (UtilityTasks.cpp:26-29) *)
Definition shows (vs : list T) : T := match vs with [x] => x | [x; _] => x | _ => a0 A end.
(** Scalar::print(): Scalar.cpp:96-104 *)
Definition scalar_print (x : scalar) : M nat := scalar_task [x] shows.
(** Scalar::print(dummy): Scalar.cpp:107-116 *)
Definition scalar_print_after (dummy : nat) (x : scalar) : M nat := scalar_task [x; dummy] shows.
(** the loop "dummy = norms[i].print(dummy)" (test/Test05COOSolveCG.cpp:79-82, test/Test06CSRSolveCG.cpp:76-79); the print futures in program order *)
Fixpoint print_chain (dummy : nat) (xs : list scalar) : M (list nat) :=
  match xs with
  | [] => ret []
  | x :: rest => let* n := scalar_print_after dummy x in let* ns := print_chain n rest in ret (n :: ns)
  end.
(** with the initial Future::from_value<int>(rt, 0) *)
Definition print_in_order (xs : list scalar) : M (list nat) := let* d := scalar_const (a0 A) in print_chain d xs.
(** the same loop without the chain: "norms[i].print()" *)
Fixpoint print_each (xs : list scalar) : M (list nat) :=
  match xs with
  | [] => ret []
  | x :: rest => let* n := scalar_print x in let* ns := print_each rest in ret (n :: ns)
  end.

(** What the print tasks with result futures [prints] show during the updates [tr], in the order in which they run. *)
Fixpoint shown (prints : list nat) (tr : list step) (s : store loc T) : list T :=
  match tr with
  | [] => []
  | st :: rest =>
      match tgt st with
      | LFut n => if existsb (Nat.eqb n) prints then [exec loc_dec s st (LFut n)] else []
      | _ => []
      end ++ shown prints rest (exec loc_dec s st)
  end.
End PrintScalar.

(** ** print_index_partition *)
(** PrintIndexTask: the task variant is chosen by the DIM and COORD_T of the index space handle it is asked for (TaskBaseClasses.hpp, see TaskIds.v);
    print_index_partition passes the COLOUR space (LegionUtilities.cpp:51-53).  [space_type s]: that pair for index space [s], as a number. *)
Record print_line := mk_print_line { pl_color : nat; pl_point : point }.
(** one point task (colour [c]): one line per point, in iteration order; PointInDomainIterator<DIM, COORD_T> over a domain of another type is an error *)
Definition print_index_task (c : nat) (piece : list point) : list print_line := map (mk_print_line c) piece.
Definition print_index_partition (lg : legion) (space_type : nat -> nat) (q : nat) : outcome (nat * list (list print_line)) :=
  if space_type (part_colors lg q) =? space_type (part_parent lg q)
  then Ok (length (part_pieces lg q),            (* "Printing index partition ... with N pieces." *)
           map (fun cp => print_index_task (fst cp) (snd cp)) (combine (seq 0 (length (part_pieces lg q))) (part_pieces lg q)))
  else UB.
