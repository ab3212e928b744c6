(** PeersFacts: what the row loops of the comparison benchmarks insert. *)
From Verif Require Import Base Index IndexSpec IndexFacts Outcome StencilSpec Peers.
Set Implicit Arguments.
Local Open Scope Z_scope.

Section Eval.
Variable smax : Z.
Hypothesis Hmax : 1 <= smax <= 2 ^ 63 - 1.
(** the expression is defined and has the value [x], which fits the signed type *)
Definition evals (e : outcome cint) (x : Z) : Prop := 0 <= x <= smax /\ (e = Ok (Sgn x) \/ e = Ok (Uns x)).
Lemma unsigned_small x : 0 <= x <= smax -> unsigned64 x = x.
Proof. intros H. apply Z.mod_small. lia. Qed.
Lemma checked_ok x : 0 <= x <= smax -> checked smax x = Ok (Sgn x).
Proof. intros H. unfold checked, fits_signed. replace (- smax - 1 <=? x) with true by (symmetry; apply Z.leb_le; lia). replace (x <=? smax) with true by (symmetry; apply Z.leb_le; lia). reflexivity. Qed.
Lemma evals_binary f a b x y : evals a x -> evals b y -> 0 <= f x y <= smax -> evals (binary smax f a b) (f x y).
Proof.
  intros [Hx Ea] [Hy Eb] H. split; [exact H|].
  destruct Ea as [->| ->]; destruct Eb as [->| ->]; cbn [binary obind raw]; rewrite ?(unsigned_small Hx), ?(unsigned_small Hy), ?(unsigned_small H), ?(checked_ok H); auto.
Qed.
Lemma evals_add a b x y : evals a x -> evals b y -> x + y <= smax -> evals (add smax a b) (x + y).
Proof. intros Ha Hb H. apply evals_binary; auto. destruct Ha, Hb. lia. Qed.
Lemma evals_mul a b x y : evals a x -> evals b y -> x * y <= smax -> evals (mul smax a b) (x * y).
Proof. intros Ha Hb H. apply evals_binary; auto. destruct Ha, Hb. nia. Qed.
Lemma evals_sub a b x y : evals a x -> evals b y -> y <= x -> evals (sub smax a b) (x - y).
Proof. intros Ha Hb H. apply evals_binary; auto. destruct Ha, Hb. lia. Qed.
Lemma evals_less a b x y : evals a x -> evals b y -> less a b = Ok (x <? y).
Proof.
  intros [Hx Ea] [Hy Eb]. destruct Ea as [->| ->]; destruct Eb as [->| ->]; cbn [less obind raw]; rewrite ?(unsigned_small Hx), ?(unsigned_small Hy); reflexivity.
Qed.
Lemma evals_div a b x y : evals a x -> evals b y -> 0 < y -> evals (div smax a b) (x / y).
Proof.
  intros [Hx Ea] [Hy Eb] H. assert (0 <= x / y <= smax).
  { split; [apply Z.div_pos; lia|]. assert (x / y <= x) by (apply Z.div_le_upper_bound; nia). lia. }
  split; [assumption|]. destruct Ea as [->| ->]; destruct Eb as [->| ->]; cbn [div divide obind raw]; rewrite ?(unsigned_small Hx), ?(unsigned_small Hy);
    replace (y =? 0) with false by (symmetry; apply Z.eqb_neq; lia); rewrite ?Z.quot_div_nonneg by lia; rewrite ?checked_ok by assumption; auto.
Qed.
Lemma evals_rem a b x y : evals a x -> evals b y -> 0 < y -> evals (rem smax a b) (x mod y).
Proof.
  intros [Hx Ea] [Hy Eb] H. assert (0 <= x mod y <= smax) by (assert (B := Z.mod_pos_bound x y H); lia).
  split; [assumption|]. destruct Ea as [->| ->]; destruct Eb as [->| ->]; cbn [rem divide obind raw]; rewrite ?(unsigned_small Hx), ?(unsigned_small Hy);
    replace (y =? 0) with false by (symmetry; apply Z.eqb_neq; lia); rewrite ?Z.rem_mod_nonneg by lia; rewrite ?checked_ok by assumption; auto.
Qed.
Lemma evals_signed a x : evals a x -> to_signed smax a = Ok (Sgn x).
Proof.
  intros [Hx Ea]. destruct Ea as [->| ->]; cbn [to_signed obind signed_of]; [reflexivity|]. replace (x <=? smax) with true by (symmetry; apply Z.leb_le; lia). reflexivity.
Qed.
Lemma evals_sgn x : 0 <= x <= smax -> evals (Ok (Sgn x)) x.
Proof. intros H. split; auto. Qed.
Lemma evals_signed_of a x : evals a x -> exists v, a = Ok v /\ signed_of smax v = x.
Proof.
  intros [Hx Ea]. destruct Ea as [->| ->]; eexists; (split; [reflexivity|]); cbn [signed_of]; [reflexivity|]. replace (x <=? smax) with true by (symmetry; apply Z.leb_le; lia). reflexivity.
Qed.
Lemma both_ok a b x y : a = Ok x -> (x = true -> b = Ok y) -> both a b = Ok (x && y).
Proof. intros -> H. cbn. destruct x; [apply H; reflexivity|reflexivity]. Qed.
Lemma put_ok T c col (v : T) x j : c = Ok x -> (x = true -> evals col j) -> put smax c col v = Ok (if x then [(j, v)] else []).
Proof.
  intros -> H. unfold put. cbn [obind]. destruct x; [|reflexivity]. destruct (evals_signed_of (H eq_refl)) as [w [-> E]]. cbn [obind]. rewrite E. reflexivity.
Qed.
Lemma e0 : evals (Ok (Sgn 0)) 0. Proof. apply evals_sgn. lia. Qed.
Lemma e1 : evals (Ok (Sgn 1)) 1. Proof. apply evals_sgn. lia. Qed.
End Eval.

Lemma in_turn_ok T (X : Type) (f : X -> list (Z * T)) ls os : Forall2 (fun l o => l = Ok (f o)) ls os -> in_turn ls = Ok (flat_map f os).
Proof. induction 1 as [|l o ls os H _ IH]; [reflexivity|]. cbn [in_turn flat_map]. rewrite H, IH. reflexivity. Qed.

(** the offsets in the order in which the programs treat them, with numerators *)
Definition peer_order (t : laplacian) : list (point * Z) :=
  match t with
  | LAPLACIAN_1D_3POINT => [([-1], -1); ([0], 2); ([1], -1)]
  | LAPLACIAN_2D_5POINT => [([-1; 0], -1); ([0; -1], -1); ([0; 0], 4); ([0; 1], -1); ([1; 0], -1)]
  | LAPLACIAN_3D_7POINT => [([-1; 0; 0], -1); ([0; -1; 0], -1); ([0; 0; -1], -1); ([0; 0; 0], 6); ([0; 0; 1], -1); ([0; 1; 0], -1); ([1; 0; 0], -1)]
  | LAPLACIAN_3D_27POINT =>
      [([-1; -1; -1], -2); ([-1; -1; 0], -3); ([-1; -1; 1], -2); ([-1; 0; -1], -3); ([-1; 0; 0], -6); ([-1; 0; 1], -3); ([-1; 1; -1], -2); ([-1; 1; 0], -3); ([-1; 1; 1], -2);
       ([0; -1; -1], -3); ([0; -1; 0], -6); ([0; -1; 1], -3); ([0; 0; -1], -6); ([0; 0; 0], 88); ([0; 0; 1], -6); ([0; 1; -1], -3); ([0; 1; 0], -6); ([0; 1; 1], -3);
       ([1; -1; -1], -2); ([1; -1; 0], -3); ([1; -1; 1], -2); ([1; 0; -1], -3); ([1; 0; 0], -6); ([1; 0; 1], -3); ([1; 1; -1], -2); ([1; 1; 0], -3); ([1; 1; 1], -2)]
  end.
Definition denominator (t : laplacian) : Z := match t with LAPLACIAN_3D_27POINT => 26 | _ => 1 end.

Section Row.
Variable T : Type.
Variable lit : Z -> Z -> T.
Variable smax : Z.
Hypothesis Hmax : 1 <= smax <= 2 ^ 63 - 1.
Variable b : rect.
Variable t : laplacian.
Definition at_offset (p : point) (oe : point * Z) : list (Z * T) :=
  if contains b (padd p (fst oe)) then [(linearize_row_major b (padd p (fst oe)), lit (snd oe) (denominator t))] else [].
End Row.

Section Row3.
Variable T : Type.
Variable lit : Z -> Z -> T.
Variable smax : Z.
Hypothesis Hmax : 1 <= smax <= 2 ^ 63 - 1.
Variables nx ny nz : Z.
Hypothesis Hx : 1 <= nx.
Hypothesis Hy : 1 <= ny.
Hypothesis Hz : 1 <= nz.
Hypothesis Hsize : nx * ny * nz <= smax.
Variables ex ey ez : outcome cint.
Hypothesis Ex : evals smax ex nx.
Hypothesis Ey : evals smax ey ny.
Hypothesis Ez : evals smax ez nz.
Notation b := (mk_rect [0; 0; 0] [nx - 1; ny - 1; nz - 1]).
Lemma linearize3 x y z : linearize_row_major b [x; y; z] = ny * nz * x + nz * y + z.
Proof. unfold linearize_row_major. cbn [linearize_row_major_aux lo hi fst]. ring. Qed.
Lemma contains3 x y z : contains b [x; y; z] = (0 <=? x) && (x <=? nx - 1) && ((0 <=? y) && (y <=? ny - 1) && ((0 <=? z) && (z <=? nz - 1))).
Proof. unfold contains. cbn [lo hi contains_aux]. rewrite !andb_true_r. reflexivity. Qed.
Variables gx gy gz : Z.
Hypothesis Gx : 0 <= gx < nx.
Hypothesis Gy : 0 <= gy < ny.
Hypothesis Gz : 0 <= gz < nz.
Let g := ny * nz * gx + nz * gy + gz.
Lemma prod_bounds : ny * nz <= smax /\ nz <= smax /\ ny <= smax /\ nx <= smax /\ 0 < ny * nz.
Proof. assert (0 < ny * nz) by nia. repeat split; nia. Qed.
Lemma g_range x y z : 0 <= x < nx -> 0 <= y < ny -> 0 <= z < nz -> 0 <= ny * nz * x + nz * y + z < nx * ny * nz.
Proof. intros H1 H2 H3. assert (0 < ny * nz) by nia. split; [nia|]. assert (nz * y + z <= ny * nz - 1) by nia. assert (ny * nz * x <= ny * nz * (nx - 1)) by nia. nia. Qed.
Lemma col3 X Y Z0 x y z : evals smax X x -> evals smax Y y -> evals smax Z0 z -> x < nx -> y < ny -> z < nz ->
  evals smax (add smax (add smax (mul smax (mul smax ey ez) X) (mul smax ez Y)) Z0) (ny * nz * x + nz * y + z).
Proof.
  intros HX HY HZ Lx Ly Lz. destruct prod_bounds as (P1 & P2 & P3 & P4 & P5). assert (HX' := proj1 HX). assert (HY' := proj1 HY). assert (HZ' := proj1 HZ).
  assert (R := @g_range x y z ltac:(lia) ltac:(lia) ltac:(lia)).
  assert (0 <= ny * nz * x) by nia. assert (0 <= nz * y) by nia.
  apply evals_add; [exact Hmax| |exact HZ|lia]. apply evals_add; [exact Hmax| | |lia].
  - apply evals_mul; [exact Hmax| |exact HX|lia]. apply evals_mul; [exact Hmax|exact Ey|exact Ez|exact P1].
  - apply evals_mul; [exact Hmax|exact Ez|exact HY|lia].
Qed.
Lemma coords : g mod nz = gz /\ g / nz = ny * gx + gy /\ (ny * gx + gy) mod ny = gy /\ (ny * gx + gy) / ny = gx.
Proof.
  assert (Eg : g = nz * (ny * gx + gy) + gz) by (unfold g; ring).
  split; [|split; [|split]].
  - symmetry. apply (Z.mod_unique_pos _ _ (ny * gx + gy)); [lia|exact Eg].
  - symmetry. apply (Z.div_unique_pos _ _ _ gz); [lia|exact Eg].
  - symmetry. apply (Z.mod_unique_pos _ _ gx); lia.
  - symmetry. apply (Z.div_unique_pos _ _ _ gy); lia.
Qed.

Ltac hyps := intros; repeat match goal with H : _ && _ = true |- _ => apply andb_true_iff in H; destruct H | H : (_ <? _) = true |- _ => apply Z.ltb_lt in H end.
Ltac coord := first [eassumption | apply e0; lia | apply e1; lia
  | eapply evals_add; [exact Hmax|coord|coord|lia] | eapply evals_sub; [exact Hmax|coord|coord|lia] ].
Ltac cmp := first [ eapply both_ok; [cmp|intros _; cmp] | reflexivity | eapply (@evals_less smax Hmax); coord ].
Ltac line3 :=
  unfold at_offset; cbn [fst snd padd denominator];
  rewrite linearize3, contains3;
  eapply eq_trans; [eapply (@put_ok smax); [cmp|hyps; eapply col3; (coord || lia)]|];
  match goal with |- Ok (if ?c then _ else _) = Ok (if ?d then _ else _) => assert (Ecd : c = d) by (apply Bool.eq_iff_eq_true; rewrite ?andb_true_iff, ?Z.ltb_lt, ?Z.leb_le; intuition lia); rewrite Ecd; destruct d; [|reflexivity] end;
  do 3 f_equal; ring.
Lemma row3 t : t = LAPLACIAN_3D_7POINT \/ t = LAPLACIAN_3D_27POINT ->
  row_calls lit smax t ex ey ez (Ok (Sgn g)) = Ok (flat_map (at_offset lit b t [gx; gy; gz]) (peer_order t)).
Proof.
  intros Ht. destruct prod_bounds as (P1 & P2 & P3 & P4 & P5). destruct coords as (C1 & C2 & C3 & C4).
  assert (Hgx : evals smax (Ok (Sgn gx)) gx) by (apply evals_sgn; lia).
  assert (Hgy : evals smax (Ok (Sgn gy)) gy) by (apply evals_sgn; lia).
  assert (Hgz : evals smax (Ok (Sgn gz)) gz) by (apply evals_sgn; lia).
  assert (Rg := @g_range gx gy gz Gx Gy Gz). fold g in Rg.
  assert (Eg : evals smax (Ok (Sgn g)) g) by (apply evals_sgn; lia).
  assert (Hq := evals_div Hmax Eg Ez ltac:(lia)). assert (Hr := evals_rem Hmax Eg Ez ltac:(lia)). rewrite C2 in Hq. rewrite C1 in Hr.
  assert (Egxy : evals smax (Ok (Sgn (ny * gx + gy))) (ny * gx + gy)) by (apply evals_sgn; exact (proj1 Hq)).
  assert (Hq' := evals_div Hmax Egxy Ey ltac:(lia)). assert (Hr' := evals_rem Hmax Egxy Ey ltac:(lia)). rewrite C4 in Hq'. rewrite C3 in Hr'.
  destruct Ht as [->| ->]; unfold row_calls; rewrite (evals_signed Hr), (evals_signed Hq); cbn [obind]; rewrite (evals_signed Hr'), (evals_signed Hq'); cbn [obind];
    apply in_turn_ok; unfold peer_order; repeat (apply Forall2_cons || apply Forall2_nil); clear C1 C2 C3 C4 Hq Hr Hq' Hr' Eg Egxy Rg; line3.
Qed.
End Row3.

Section Row2.
Variable T : Type.
Variable lit : Z -> Z -> T.
Variable smax : Z.
Hypothesis Hmax : 1 <= smax <= 2 ^ 63 - 1.
Variables nx ny : Z.
Hypothesis Hx : 1 <= nx.
Hypothesis Hy : 1 <= ny.
Hypothesis Hsize : nx * ny <= smax.
Variables ex ey ez : outcome cint.
Hypothesis Ex : evals smax ex nx.
Hypothesis Ey : evals smax ey ny.
Notation b := (mk_rect [0; 0] [nx - 1; ny - 1]).
Lemma linearize2 x y : linearize_row_major b [x; y] = ny * x + y.
Proof. unfold linearize_row_major. cbn [linearize_row_major_aux lo hi fst]. ring. Qed.
Lemma contains2 x y : contains b [x; y] = (0 <=? x) && (x <=? nx - 1) && ((0 <=? y) && (y <=? ny - 1)).
Proof. unfold contains. cbn [lo hi contains_aux]. rewrite !andb_true_r. reflexivity. Qed.
Variables gx gy : Z.
Hypothesis Gx : 0 <= gx < nx.
Hypothesis Gy : 0 <= gy < ny.
Let g := ny * gx + gy.
Lemma col2 X Y x y : evals smax X x -> evals smax Y y -> x < nx -> y < ny -> evals smax (add smax (mul smax ey X) Y) (ny * x + y).
Proof.
  intros HX HY Lx Ly. assert (HX' := proj1 HX). assert (HY' := proj1 HY). assert (0 <= ny * x) by nia. assert (ny * x + y < nx * ny) by nia.
  apply evals_add; [exact Hmax| |exact HY|lia]. apply evals_mul; [exact Hmax|exact Ey|exact HX|lia].
Qed.
Ltac hyps := intros; repeat match goal with H : _ && _ = true |- _ => apply andb_true_iff in H; destruct H | H : (_ <? _) = true |- _ => apply Z.ltb_lt in H end.
Ltac coord := first [eassumption | apply e0; lia | apply e1; lia
  | eapply evals_add; [exact Hmax|coord|coord|lia] | eapply evals_sub; [exact Hmax|coord|coord|lia] ].
Ltac cmp := first [ eapply both_ok; [cmp|intros _; cmp] | reflexivity | eapply (@evals_less smax Hmax); coord ].
Ltac line2 :=
  unfold at_offset; cbn [fst snd padd denominator];
  rewrite linearize2, contains2;
  eapply eq_trans; [eapply (@put_ok smax); [cmp|hyps; eapply col2; (coord || lia)]|];
  match goal with |- Ok (if ?c then _ else _) = Ok (if ?d then _ else _) => assert (Ecd : c = d) by (apply Bool.eq_iff_eq_true; rewrite ?andb_true_iff, ?Z.ltb_lt, ?Z.leb_le; intuition lia); rewrite Ecd; destruct d; [|reflexivity] end;
  do 3 f_equal; ring.
Lemma row2 : row_calls lit smax LAPLACIAN_2D_5POINT ex ey ez (Ok (Sgn g)) =
  Ok (flat_map (at_offset lit b LAPLACIAN_2D_5POINT [gx; gy]) (peer_order LAPLACIAN_2D_5POINT)).
Proof.
  assert (Bx : nx <= smax) by nia. assert (By : ny <= smax) by nia.
  assert (Hgx : evals smax (Ok (Sgn gx)) gx) by (apply evals_sgn; lia).
  assert (Hgy : evals smax (Ok (Sgn gy)) gy) by (apply evals_sgn; lia).
  assert (Rg : 0 <= g < nx * ny) by (unfold g; nia).
  assert (Eg : evals smax (Ok (Sgn g)) g) by (apply evals_sgn; lia).
  assert (Hq := evals_div Hmax Eg Ey ltac:(lia)). assert (Hr := evals_rem Hmax Eg Ey ltac:(lia)).
  assert (C1 : g mod ny = gy) by (symmetry; apply (Z.mod_unique_pos _ _ gx); [lia|reflexivity]).
  assert (C2 : g / ny = gx) by (symmetry; apply (Z.div_unique_pos _ _ _ gy); [lia|reflexivity]).
  rewrite C2 in Hq. rewrite C1 in Hr.
  unfold row_calls; rewrite (evals_signed Hr), (evals_signed Hq); cbn [obind].
  apply in_turn_ok; unfold peer_order; repeat (apply Forall2_cons || apply Forall2_nil); clear C1 C2 Hq Hr Eg Rg; line2.
Qed.
End Row2.

Section Row1.
Variable T : Type.
Variable lit : Z -> Z -> T.
Variable smax : Z.
Hypothesis Hmax : 1 <= smax <= 2 ^ 63 - 1.
Variable nx : Z.
Hypothesis Hsize : 1 <= nx <= smax.
Variables ex ey ez : outcome cint.
Hypothesis Ex : evals smax ex nx.
Notation b := (mk_rect [0] [nx - 1]).
Lemma linearize1 x : linearize_row_major b [x] = x.
Proof. unfold linearize_row_major. cbn [linearize_row_major_aux lo hi fst]. ring. Qed.
Lemma contains1 x : contains b [x] = (0 <=? x) && (x <=? nx - 1).
Proof. unfold contains. cbn [lo hi contains_aux]. rewrite !andb_true_r. reflexivity. Qed.
Variable gx : Z.
Hypothesis Gx : 0 <= gx < nx.
Ltac hyps := intros; repeat match goal with H : _ && _ = true |- _ => apply andb_true_iff in H; destruct H | H : (_ <? _) = true |- _ => apply Z.ltb_lt in H end.
Ltac coord := first [eassumption | apply e0; lia | apply e1; lia
  | eapply evals_add; [exact Hmax|coord|coord|lia] | eapply evals_sub; [exact Hmax|coord|coord|lia] ].
Ltac cmp := first [ eapply both_ok; [cmp|intros _; cmp] | reflexivity | eapply (@evals_less smax Hmax); coord ].
Ltac line1 :=
  unfold at_offset; cbn [fst snd padd denominator];
  rewrite linearize1, contains1;
  eapply eq_trans; [eapply (@put_ok smax); [cmp|hyps; (coord || lia)]|];
  match goal with |- Ok (if ?c then _ else _) = Ok (if ?d then _ else _) => assert (Ecd : c = d) by (apply Bool.eq_iff_eq_true; rewrite ?andb_true_iff, ?Z.ltb_lt, ?Z.leb_le; intuition lia); rewrite Ecd; destruct d; [|reflexivity] end;
  do 3 f_equal; ring.
Lemma row1 : row_calls lit smax LAPLACIAN_1D_3POINT ex ey ez (Ok (Sgn gx)) =
  Ok (flat_map (at_offset lit b LAPLACIAN_1D_3POINT [gx]) (peer_order LAPLACIAN_1D_3POINT)).
Proof.
  assert (Hgx : evals smax (Ok (Sgn gx)) gx) by (apply evals_sgn; lia).
  unfold row_calls. apply in_turn_ok; unfold peer_order; repeat (apply Forall2_cons || apply Forall2_nil); line1.
Qed.
End Row1.
