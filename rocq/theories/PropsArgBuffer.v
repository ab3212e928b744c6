(** PropsArgBuffer: property C50. *)
From Verif Require Import Base Outcome ArgBuffer.
Local Open Scope Z_scope.
Set Implicit Arguments.

(** ** Specification: an array in memory is the concatenation of the images of its elements. *)
Definition array_image {A} (L : layout A) (xs : list A) (bs : list byte) : Prop :=
  exists imgs, Forall2 (image_of L) xs imgs /\ bs = concat imgs.

Lemma array_length A (L : layout A) xs bs : array_image L xs bs -> length bs = (length xs * size_of L)%nat.
Proof.
  intros [imgs [F ->]]. induction F as [|x i xs imgs [H _] F IH]; [reflexivity|]. cbn [concat length].
  rewrite app_length, IH, H. lia.
Qed.
Lemma array_nth A (L : layout A) xs bs : array_image L xs bs ->
  map (fun i => value_of L (firstn (size_of L) (skipn (i * size_of L) bs))) (seq 0 (length xs)) = xs.
Proof.
  intros [imgs [F ->]]. induction F as [|x i xs imgs [H1 H2] F IH]; [reflexivity|].
  cbn [length seq map concat]. f_equal.
  - cbn [Nat.mul skipn]. rewrite <- H1, firstn_app, firstn_all, Nat.sub_diag. cbn [firstn]. rewrite app_nil_r. exact H2.
  - rewrite <- IH at 2. rewrite <- seq_shift, map_map. apply map_ext. intros k. f_equal. f_equal.
    rewrite skipn_app. rewrite (skipn_all2 i) by (rewrite H1; lia). cbn [app]. f_equal. rewrite H1. lia.
Qed.

(** ** C50.  For every argument value and every offset list (the empty one too), whatever the padding bytes hold, the
    fill task reads back exactly the arguments and the offsets, in order. *)
Theorem C50_round_trip : forall (ARGS DATA : Type) (LA : layout ARGS) (LD : layout DATA) args offsets ia io,
  (0 < size_of LD)%nat ->
  image_of LA args ia -> array_image LD offsets io ->
  exists buf, pack LA LD ia io (length offsets) = Ok buf /\ unpack LA LD buf = Ok (args, offsets).
Proof.
  intros ARGS DATA LA LD args offsets ia io Hpos [Hl Hv] Ho.
  pose proof (array_length Ho) as Hlen.
  exists (ia ++ io). split.
  - unfold pack, memcpy. rewrite repeat_length, Hl. rewrite Nat.leb_refl.
    replace (0 + size_of LA <=? size_of LA + length offsets * size_of LD)%nat with true by (symmetry; apply Nat.leb_le; lia).
    cbn [andb obind firstn app]. rewrite (firstn_all2 ia) by lia.
    rewrite app_length, skipn_length, repeat_length, Hl, Hlen, Nat.leb_refl.
    replace (size_of LA + length offsets * size_of LD <=? size_of LA + (size_of LA + length offsets * size_of LD - (0 + size_of LA)))%nat
      with true by (symmetry; apply Nat.leb_le; lia). cbn [andb].
    f_equal. rewrite firstn_app, (firstn_all2 ia), Hl, Nat.sub_diag by lia. cbn [firstn]. rewrite app_nil_r. f_equal.
    rewrite (firstn_all2 io) by lia. rewrite skipn_all2; [apply app_nil_r|].
    rewrite app_length, skipn_length, repeat_length. lia.
  - unfold unpack, oassert. rewrite app_length, Hl.
    replace (size_of LA <=? size_of LA + length io)%nat with true by (symmetry; apply Nat.leb_le; lia).
    replace (size_of LA + length io - size_of LA)%nat with (length offsets * size_of LD)%nat by lia.
    rewrite Nat.mod_mul by lia. rewrite Nat.eqb_refl. rewrite Nat.div_mul by lia.
    f_equal. f_equal; [rewrite firstn_app, (firstn_all2 ia), Hl, Nat.sub_diag by lia; cbn [firstn]; rewrite app_nil_r; exact Hv|].
    rewrite <- (array_nth Ho) at 2. apply map_ext. intros i. unfold load. f_equal. f_equal.
    rewrite skipn_app. rewrite skipn_all2 by lia. cbn [app]. f_equal. lia.
Qed.

(** A buffer whose length is not sizeof(Args) plus a whole number of offsets is rejected by an assertion, never
    misread; and any other buffer is accepted with exactly that many offsets. *)
Theorem C50_malformed_buffers : forall (ARGS DATA : Type) (LA : layout ARGS) (LD : layout DATA) buf,
  (0 < size_of LD)%nat ->
  ((exists n, length buf = (size_of LA + n * size_of LD)%nat) ->
     exists args offsets, unpack LA LD buf = Ok (args, offsets) /\ (size_of LA + length offsets * size_of LD = length buf)%nat) /\
  ((~ exists n, length buf = (size_of LA + n * size_of LD)%nat) -> unpack LA LD buf = AssertFail).
Proof.
  intros ARGS DATA LA LD buf Hpos. split.
  - intros [n Hn]. unfold unpack, oassert. rewrite Hn.
    replace (size_of LA <=? size_of LA + n * size_of LD)%nat with true by (symmetry; apply Nat.leb_le; lia).
    replace (size_of LA + n * size_of LD - size_of LA)%nat with (n * size_of LD)%nat by lia.
    rewrite Nat.mod_mul by lia. rewrite Nat.eqb_refl. rewrite Nat.div_mul by lia.
    eexists; eexists; split; [reflexivity|]. rewrite map_length, seq_length. reflexivity.
  - intros H. unfold unpack, oassert. destruct (size_of LA <=? length buf)%nat eqn:E; [|reflexivity].
    apply Nat.leb_le in E. destruct ((length buf - size_of LA) mod size_of LD =? 0)%nat eqn:E2; [|reflexivity].
    exfalso. apply H. apply Nat.eqb_eq in E2. exists ((length buf - size_of LA) / size_of LD)%nat.
    pose proof (Nat.div_mod (length buf - size_of LA) (size_of LD) ltac:(lia)). lia.
Qed.

(** Non-vacuity: std::pair<Point<1,int>, float-like 4-byte entry> with a 3-byte Args of which one byte is padding. *)
Definition LA_ex : layout Z := mk_layout 3 (fun bs => nth 0 bs 0 + 256 * nth 1 bs 0).
Definition LD_ex : layout (Z * Z) := mk_layout 4 (fun bs => (nth 0 bs 0 + 256 * nth 1 bs 0, nth 2 bs 0)).
Example C50_example : exists buf, pack LA_ex LD_ex [5; 1; 99] [1; 0; 7; 42; 2; 0; 8; 13] 2 = Ok buf /\
  unpack LA_ex LD_ex buf = Ok (261, [(1, 7); (2, 8)]).
Proof.
  apply C50_round_trip with (offsets := [(1, 7); (2, 8)]); [cbn; lia|split; reflexivity|].
  exists [[1; 0; 7; 42]; [2; 0; 8; 13]]. split; [|reflexivity]. repeat constructor.
Qed.
