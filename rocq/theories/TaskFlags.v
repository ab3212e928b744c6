(** TaskFlags: the task flag set and what registration does with it (/repo/src/LegionUtilities.hpp:37-54, 120-207). *)
From Verif Require Import Base TaskIds.
Local Open Scope Z_scope.

(** enum class TaskFlags : uint8_t: /repo/src/LegionUtilities.hpp:37-42.  A value is the 8-bit number. *)
Definition LEAF : Z := 1.
Definition INNER : Z := 2.
Definition IDEMPOTENT : Z := 4.
Definition REPLICABLE : Z := 8.

(** operator|: /repo/src/LegionUtilities.hpp:44-48 (the int result is cast back to uint8_t). *)
Definition flags_or (a b : Z) : Z := (Z.lor a b) mod 256.
(** operator&: /repo/src/LegionUtilities.hpp:50-54 (static_cast<bool>). *)
Definition flags_and (a b : Z) : bool := negb (Z.land a b =? 0).

(** The four registrar settings made by preregister_task: /repo/src/LegionUtilities.hpp:137-143 and :191-197. *)
Record registrar := mk_registrar { set_leaf : bool; set_inner : bool; set_idempotent : bool; set_replicable : bool }.
Definition preregister_task (task_flags : Z) : registrar :=
  mk_registrar (flags_and task_flags LEAF) (flags_and task_flags INNER)
               (flags_and task_flags IDEMPOTENT) (flags_and task_flags REPLICABLE).

(** The [flags] constant of every task class: UtilityTasks.hpp:17-118, LinearAlgebraTasks.hpp:15-49,
    COOMatrixTasks.hpp:17-53, CSRMatrixTasks.hpp:17-51, ExampleSystems.hpp:67-142, StencilGenerator.hpp:39-123. *)
Definition pure_leaf : Z := flags_or (flags_or LEAF IDEMPOTENT) REPLICABLE.
Definition block_flags (b : block) : Z :=
  match b with
  | PRINT_SCALAR | PRINT_INDEX | RANDOM_FILL | COO_PRINT | CSR_PRINT => LEAF
  | _ => pure_leaf
  end.
(** preregister() of the task base classes passes the class's flags: /repo/src/TaskBaseClasses.hpp:110-119, 143-150,
    199-207, 292-300. *)
Definition registrar_of (b : block) : registrar := preregister_task (block_flags b).
