(** ArgBuffer: how the stencil fill arguments travel through the untyped task argument buffer
    (/repo/src/StencilGenerator.hpp:372-399, 483-510, 596-623; /repo/src/StencilGenerator.cpp:24-39, 142-157, 261-276,
    394-409: the three packing sites and the four unpacking sites are the same code up to the Args type). *)
From Verif Require Import Base Outcome.
Local Open Scope Z_scope.
Set Implicit Arguments.

Definition byte := Z.
(** A trivially copyable C++ type: its sizeof and what its object representation denotes.  Padding bytes may hold
    anything, so several images can denote one value. *)
Record layout (A : Type) := mk_layout { size_of : nat; value_of : list byte -> A }.
(** [bs] is an object representation of [a] *)
Definition image_of {A} (L : layout A) (a : A) (bs : list byte) : Prop := length bs = size_of L /\ value_of L bs = a.

(** std::memcpy(dst.data() + at, src, n): bytes [at .. at+n) are overwritten ([UB] when out of range). *)
Definition memcpy (dst : list byte) (at_ : nat) (src : list byte) (n : nat) : outcome (list byte) :=
  if ((at_ + n <=? length dst) && (n <=? length src))%nat
  then Ok (firstn at_ dst ++ firstn n src ++ skipn (at_ + n) dst) else UB.

Section Pack.
Variable ARGS DATA : Type.
Variable LA : layout ARGS.
Variable LD : layout DATA.

(** StencilGenerator.hpp:381-389 (and 492-500, 605-613).  [args_image]: the bytes of the local variable args;
    [offsets_image]: the bytes of the array offsets.data(), of [n] = offsets.size() elements. *)
Definition pack (args_image offsets_image : list byte) (n : nat) : outcome (list byte) :=
  let offsets_byte_size := (n * size_of LD)%nat in
  let arg_buffer := repeat 0 (size_of LA + offsets_byte_size) in
  do b1 <- memcpy arg_buffer 0 args_image (size_of LA);
  memcpy b1 (size_of LA) offsets_image offsets_byte_size.

(** offset_ptr[i]: the i-th object of the array that starts at byte sizeof(Args). *)
Definition load (buf : list byte) (i : nat) : DATA :=
  value_of LD (firstn (size_of LD) (skipn (size_of LA + i * size_of LD) buf)).
(** StencilGenerator.cpp:24-39. *)
Definition unpack (buf : list byte) : outcome (ARGS * list DATA) :=
  let arglen := length buf in
  oassert (size_of LA <=? arglen)%nat (
    let args := value_of LA (firstn (size_of LA) buf) in
    oassert (((arglen - size_of LA) mod size_of LD =? 0)%nat) (
      let num_offsets := ((arglen - size_of LA) / size_of LD)%nat in
      Ok (args, map (load buf) (seq 0 num_offsets)))).
End Pack.
