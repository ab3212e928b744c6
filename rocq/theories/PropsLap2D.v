(** PropsLap2D: property C52 (2-D Laplacian kernel size). *)
From Verif Require Import Base Index IndexSpec IndexFacts Outcome StencilSize StencilSpec StencilSizeFacts Sched Arith Launch Vector Matrix ExampleSystems.
Set Implicit Arguments.
Local Open Scope Z_scope.

(** the 5-point stencil: the point itself and its four neighbours *)
Definition five_point {E} (centre side : E) : list (point * E) :=
  [([0; 0], centre); ([-1; 0], side); ([1; 0], side); ([0; -1], side); ([0; 1], side)].

Lemma zsum_filter (f : Z -> bool) c L : zsum (fun i => if f i then c else 0) L = c * Z.of_nat (length (filter f L)).
Proof.
  induction L as [|x L IH]; [cbn; lia|]. unfold zsum in *. cbn [fold_right filter]. rewrite IH. destruct (f x); cbn [length]; lia.
Qed.

(** ** C52 *)
Theorem C52_laplacian_2d_kernel_size : forall (E : Type) (centre side : E) (height width : Z),
  1 <= height -> 1 <= width ->
  laplacian_2d_kernel_size height width
  = Z.of_nat (length (in_bounds_pairs (mk_rect [0; 0] [height - 1; width - 1]) (five_point centre side))).
Proof.
  intros E centre side h w Hh Hw. rewrite cnt_pairs. cbn [lo hi].
  rewrite (@cnt_cons E 0 (h - 1) [0] [w - 1] (five_point centre side) 1) by (repeat constructor).
  rewrite (@zsum_ext _ (fun i => (3 * w - 2 + (if (1 <=? i) && (i <=? h - 1) then w else 0)) + (if (0 <=? i) && (i <=? h - 2) then w else 0))).
  - rewrite !zsum_plus, zsum_const, !zsum_filter, !filter_zrange_length, zrange_length. unfold laplacian_2d_kernel_size.
    replace (Z.max 0 (Z.min (h - 1) (h - 1) - Z.max 1 0 + 1)) with (h - 1) by lia.
    replace (Z.max 0 (Z.min (h - 2) (h - 1) - Z.max 0 0 + 1)) with (h - 1) by lia.
    replace (Z.of_nat (Z.to_nat (h - 1 - 0 + 1))) with h by lia. ring.
  - intros i Hi. apply in_zrange in Hi. unfold five_point, sub_offsets. cbn [flat_map fst snd hd tl].
    assert (V : volume (mk_rect [0] [w - 1]) = w) by (unfold volume; cbn [lo hi volume_aux]; destruct (Z.ltb_spec (w - 1) 0); lia).
    assert (D : forall (e : E) l (o : Z), @cnt E [0] [w - 1] (([o], e) :: l) = (if Z.abs o <=? w then w - Z.abs o else 0) + @cnt E [0] [w - 1] l).
    { intros e l o. rewrite cnt_1d_cons by reflexivity. rewrite V. reflexivity. }
    replace (i + 0) with i by lia. replace (i + -1) with (i - 1) by lia.
    destruct (Z.leb_spec 0 i); [|lia]. destruct (Z.leb_spec i (h - 1)); [|lia]. cbn [andb app].
    destruct (Z.leb_spec 0 (i - 1)); destruct (Z.leb_spec (i - 1) (h - 1)); destruct (Z.leb_spec 0 (i + 1)); destruct (Z.leb_spec (i + 1) (h - 1));
      destruct (Z.leb_spec 1 i); destruct (Z.leb_spec i (h - 2)); try lia; cbn [andb app]; rewrite !D, cnt_nil; cbn [Z.abs];
      repeat match goal with |- context [if ?a <=? ?b then _ else _] => destruct (Z.leb_spec a b) end; lia.
Qed.
Example C52_example : laplacian_2d_kernel_size 3 4 = 46 /\ laplacian_2d_kernel_size 1 1 = 1.
Proof. split; reflexivity. Qed.
