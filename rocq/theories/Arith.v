(** Arith: the arithmetic of the entry type.
    The C++ is templated over ENTRY_T; the model is parametric in a record of operations, and a theorem that
    quantifies over [arith T] holds bit-for-bit for whatever float/double arithmetic the hardware provides.
    Two instances: exact real arithmetic with an explicit "undefined" value, and IEEE binary64. *)
From Verif Require Import Base.
From Coq Require Import Reals Lra.
From Coq Require Import Floats.SpecFloat.
Set Implicit Arguments.

(** The operations ENTRY_T supplies: literals 0 and 1 (static_cast<ENTRY_T>), unary -, + - * /, std::fma
    (/repo/src/LinearAlgebraTasks.cpp:85, 129) and std::sqrt (/repo/src/UtilityTasks.cpp:83, 92). *)
Record arith (T : Type) := mk_arith {
  a0 : T; a1 : T;
  aneg : T -> T;
  aadd : T -> T -> T;
  asub : T -> T -> T;
  amul : T -> T -> T;
  adiv : T -> T -> T;
  afma : T -> T -> T -> T;   (* afma a b c = a*b + c *)
  asqrt : T -> T
}.

(** Exact arithmetic: real numbers plus an absorbing undefined value (division by zero, root of a negative
    number), which plays the role of NaN/Inf. *)
Definition lift1 {A B} (f : A -> B) (x : option A) : option B :=
  match x with Some a => Some (f a) | None => None end.
Definition lift2 {A B C} (f : A -> B -> C) (x : option A) (y : option B) : option C :=
  match x, y with Some a, Some b => Some (f a b) | _, _ => None end.
Definition lift3 {A B C D} (f : A -> B -> C -> D) (x : option A) (y : option B) (z : option C) : option D :=
  match x, y, z with Some a, Some b, Some c => Some (f a b c) | _, _, _ => None end.

Definition Rdiv_opt (x y : option R) : option R :=
  match x, y with
  | Some a, Some b => if Req_EM_T b 0 then None else Some (a / b)%R
  | _, _ => None
  end.
Definition Rsqrt_opt (x : option R) : option R :=
  match x with
  | Some a => if Rlt_dec a 0 then None else Some (sqrt a)
  | None => None
  end.
Definition exact : arith (option R) := {|
  a0 := Some 0%R; a1 := Some 1%R;
  aneg := lift1 Ropp;
  aadd := lift2 Rplus;
  asub := lift2 Rminus;
  amul := lift2 Rmult;
  adiv := Rdiv_opt;
  afma := lift3 (fun a b c => (a * b + c)%R);
  asqrt := Rsqrt_opt |}.

(** IEEE 754 binary arithmetic (round to nearest even) with [p] bits of precision and largest exponent [e], on Coq's
    executable specification of floats.  C++ float is p = 24, e = 128, C++ double is p = 53, e = 1024. *)
(** fused multiply-add: one rounding of the exact a*b+c *)
Definition sf_fma (p e : Z) (a b c : spec_float) : spec_float :=
  match a, b, c with
  | S754_finite sa ma ea, S754_finite sb mb eb, S754_finite sc mc ec =>
      let x := Z.min (ea + eb) ec in
      let prod := cond_Zopp (xorb sa sb) (Zpos (ma * mb)) in
      let m := (prod * 2 ^ (ea + eb - x) + cond_Zopp sc (Zpos mc) * 2 ^ (ec - x))%Z in
      binary_normalize p e m x false
  | S754_finite sa ma ea, S754_finite sb mb eb, S754_zero _ => SFmul p e a b
  | S754_finite sa ma ea, S754_finite sb mb eb, S754_infinity _ => c
  | _, _, _ => SFadd p e (SFmul p e a b) c
  end.
Definition ieee (p e : Z) : arith spec_float := {|
  a0 := S754_zero false; a1 := binary_normalize p e 1 0 false;
  aneg := SFopp;
  aadd := SFadd p e;
  asub := SFsub p e;
  amul := SFmul p e;
  adiv := SFdiv p e;
  afma := sf_fma p e;
  asqrt := SFsqrt p e |}.
Definition prec := 53%Z.
Definition emax := 1024%Z.
Definition f64 := spec_float.
Definition f64_zero : f64 := S754_zero false.
Definition binary64 : arith f64 := ieee prec emax.
Definition binary32 : arith spec_float := ieee 24 128.
Definition f64_of_Z (z : Z) : f64 := binary_normalize prec emax z 0 false.
Definition f64_of_Zexp (z e : Z) : f64 := binary_normalize prec emax z e false.
