(** Print: COOMatrix::print / CSRMatrix::print (/repo/src/COOMatrix.cpp:194-216, CSRMatrix.cpp:217-243) and the print tasks
    (/repo/src/COOMatrixTasks.cpp:87-124, CSRMatrixTasks.cpp:103-157).
    SIMPLIFICATION: a printed line is the data it shows (position, entry, row, column); number formatting is not modelled.
    Both calls launch ONE task over the whole matrix (TaskLauncher, no partition). *)
From Verif Require Import Base Index Outcome Launch Matrix.
Set Implicit Arguments.

Section Print.
Variable T : Type.
Variable lg : legion.
Record line := mk_line { l_position : point; l_entry : T; l_row : point; l_col : point }.

(** COOPrintTask: /repo/src/COOMatrixTasks.cpp:116-123 *)
Definition coo_print (m : coo T) : list line :=
  map (fun kp => mk_line kp (co_entry m kp) (co_row m kp) (co_col m kp)) (co_kpts m).
(** CSRPrintTask: /repo/src/CSRMatrixTasks.cpp:137-156: the loop over the stored entries, with the row search of lines
    140-151 over ALL rows and assert(row_found) (152).  Result: the lines printed and whether the task ended normally
    ([false]: aborted by the assert, after these lines). *)
Fixpoint csr_print_loop (m : csr T) (rows kpts : list point) : list line * bool :=
  match kpts with
  | [] => ([], true)
  | kp :: rest =>
      match csr_find_row (cs_rowptr m) rows kp with
      | None => ([], false)
      | Some row =>
          let '(ls, ok) := csr_print_loop m rows rest in
          (mk_line kp (cs_entry m kp) row (cs_col m kp) :: ls, ok)
      end
  end.
Definition print_matrix (m : matrix T) : list line * bool :=
  match m with
  | COO c => (coo_print c, true)
  | CSR c => csr_print_loop c (is_points lg (cs_rows c)) (cs_kpts c)
  end.
End Print.
