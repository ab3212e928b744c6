(** Krylov: the Python reference iterations /repo/scripts/krylov.py.
    numpy arrays of length n are functions on the indices 0 .. n-1.  `@` and numpy.matmul sum from left to right here;
    BLAS may choose another order, which in exact arithmetic makes no difference.  Dividing by zero gives the undefined
    value (numpy: inf or nan with a warning, no exception). *)
From Verif Require Import Base Arith.
Set Implicit Arguments.

Section Krylov.
Variable T : Type.
Variable A : arith T.
Variable n : nat.
Notation array := (nat -> T).
Notation "a ⊕ b" := (aadd A a b) (at level 50, left associativity).
Notation "a ⊖ b" := (asub A a b) (at level 50, left associativity).
Notation "a ⊗ b" := (amul A a b) (at level 40, left associativity).
Notation "a ⊘ b" := (adiv A a b) (at level 40, left associativity).
(** u @ v *)
Definition dot (u v : array) : T := fold_left (fun acc i => acc ⊕ u i ⊗ v i) (seq 0 n) (a0 A).
(** m @ v *)
Definition matmul (m : nat -> array) (v : array) : array := fun i => dot (m i) v.

Variable m : nat -> array.
Variable b : array.

(** the variables that live across iterations; [its] is the list iterates *)
Record vars := mk_vars { v_x : array; v_r : array; v_p : array; v_r_norm2 : T; its : list array }.
(** krylov.py:21-24 (cg) and 61-64 (double_cg) *)
Definition start (x : array) : vars :=
  let r := fun i => b i ⊖ matmul m x i in
  mk_vars x r r (dot r r) [].
(** krylov.py:29-38 *)
Definition cg_body (v : vars) : vars :=
  let p := v_p v in
  let q := matmul m p in
  let alpha := v_r_norm2 v ⊘ dot p q in
  let x := fun i => v_x v i ⊕ alpha ⊗ p i in
  let iterates := its v ++ [x] in
  let r := fun i => v_r v i ⊖ alpha ⊗ q i in
  let r_norm2_old := v_r_norm2 v in
  let r_norm2 := dot r r in
  let beta := r_norm2 ⊘ r_norm2_old in
  let p := fun i => p i ⊗ beta in
  let p := fun i => p i ⊕ r i in
  mk_vars x r p r_norm2 iterates.
(** krylov.py:69-91 *)
Definition double_cg_body (v : vars) : vars :=
  let p := v_p v in
  let q := matmul m p in
  let s := matmul m (v_r v) in
  let t := matmul m q in
  let alpha := v_r_norm2 v ⊘ dot p q in
  let x := fun i => v_x v i ⊕ alpha ⊗ p i in
  let iterates := its v ++ [x] in
  let r := fun i => v_r v i ⊖ alpha ⊗ q i in
  let r_norm2_old := v_r_norm2 v in
  let r_norm2 := dot r r in
  let beta := r_norm2 ⊘ r_norm2_old in
  let p := fun i => p i ⊗ beta in
  let p := fun i => p i ⊕ r i in
  let q := fun i => q i ⊗ beta in
  let q := fun i => q i ⊕ s i in
  let q := fun i => q i ⊖ alpha ⊗ t i in
  let alpha_next := r_norm2 ⊘ dot p q in
  let x := fun i => x i ⊕ alpha_next ⊗ p i in
  let iterates := iterates ++ [x] in
  let r := fun i => r i ⊖ alpha_next ⊗ q i in
  let r_norm2_next := dot r r in
  let beta_next := r_norm2_next ⊘ r_norm2 in
  let p := fun i => r i ⊕ beta_next ⊗ p i in
  mk_vars x r p r_norm2_next iterates.
(** krylov.py:5-40: the iterates returned and what the caller's array [x] holds afterwards (it is updated in place) *)
Definition cg (x : array) : list array * array :=
  let v := Nat.iter n cg_body (start x) in (its v, v_x v).
(** krylov.py:43-93 *)
Definition double_cg (x : array) : list array * array :=
  let v := Nat.iter ((n + 1) / 2) double_cg_body (start x) in (its v, v_x v).
End Krylov.
