(** C114: planar predicates over machine integers. *)
From Coq Require Import ZArith List Bool Lia.
From Verif Require Import Outcome IntTypes GeoModel HullProofs GeoProofs MGeoModel MGeoProofs.
Import ListNotations.
Local Open Scope Z_scope.

(** [in_box x0 y0 W H p]: [p] lies in the box with corner (x0, y0), width [W] and height
    [H]; [top t]: the greatest value of the type in which values of type [t] are added;
    [turn o a b]: twice the signed area of the triangle, positive if counter-clockwise. *)

(** Three points in a box whose sides and area fit the type: no operation overflows and
    the orientation is exact. *)
Theorem C114_orientation : forall t l r o x0 y0 W H,
  IntTypes.sgn (promote t) = true ->
  in_box x0 y0 W H l -> in_box x0 y0 W H r -> in_box x0 y0 W H o ->
  W <= top t -> H <= top t -> W * H <= top t ->
  morient3 t l r o = Ok (Z.sgn (turn o r l)).
Proof. intros. rewrite morient3_ok with (x0 := x0) (y0 := y0) (W := W) (H := H); auto. Qed.

(** The bound is exact: every box of greater area has three points where it overflows. *)
Theorem C114_orientation_bound : forall t x0 y0 W H,
  IntTypes.sgn (promote t) = true -> 0 <= W -> 0 <= H -> top t < W * H ->
  exists l r o, in_box x0 y0 W H l /\ in_box x0 y0 W H r /\ in_box x0 y0 W H o
    /\ morient3 t l r o = UB.
Proof.
  intros t x0 y0 W H S HW HH HA.
  exists (P (x0 + W) (y0 + H)), (P (x0 + W) y0), (P x0 y0). unfold in_box. cbn [px py].
  split; [lia|]. split; [lia|]. split; [lia|].
  unfold morient3, mpsub, msub. cbn [px py].
  replace (x0 + W - x0) with W by lia. replace (y0 + H - y0) with H by lia. replace (y0 - y0) with 0 by lia.
  pose proof (top_pos t).
  destruct (Z_le_gt_dec W (top t)); [|rewrite arith_ub by (assumption || lia); reflexivity].
  rewrite arith_ok by (assumption || lia). cbn [bind].
  destruct (Z_le_gt_dec H (top t)); [|rewrite arith_ub by (assumption || lia); reflexivity].
  rewrite arith_ok by (assumption || lia). cbn [bind].
  rewrite arith_ok by (assumption || lia). cbn [bind].
  unfold morient, marea, mmul. cbn [px py]. rewrite promote_idem.
  rewrite (arith_ub t (W * H)) by assumption. reflexivity.
Qed.

(** Coordinates of at most 15 bits: always exact. *)
Theorem C114_orientation_small : forall t l r o, 0 < bits t <= 15 ->
  in_ity t (px l) -> in_ity t (py l) -> in_ity t (px r) -> in_ity t (py r) ->
  in_ity t (px o) -> in_ity t (py o) ->
  morient3 t l r o = Ok (Z.sgn (turn o r l)).
Proof.
  intros t l r o Hb. unfold in_ity. rewrite ity_span by lia. intros.
  assert (HP : promote t = int32) by (unfold promote; destruct (Z.ltb_spec (bits t) 32); [reflexivity | lia]).
  assert (HB : 2 ^ bits t <= 2 ^ 15) by (apply Z.pow_le_mono_r; lia).
  apply C114_orientation with (x0 := ilow t) (y0 := ilow t) (W := 2 ^ 15) (H := 2 ^ 15);
    unfold in_box, top; rewrite ?HP; try lia; try reflexivity; vm_compute; easy.
Qed.

(** Two frequent types: coordinates up to 23170 and 1518500249 in absolute value. *)
Theorem C114_orientation_int : forall l r o,
  (forall p, In p [l; r; o] -> Z.abs (px p) <= 23170 /\ Z.abs (py p) <= 23170) ->
  morient3 int32 l r o = Ok (Z.sgn (turn o r l)).
Proof.
  intros l r o B.
  pose proof (B l (or_introl eq_refl)). pose proof (B r (or_intror (or_introl eq_refl))).
  pose proof (B o (or_intror (or_intror (or_introl eq_refl)))).
  change (top int32) with 2147483647 in *.
  apply C114_orientation with (x0 := -23170) (y0 := -23170) (W := 46340) (H := 46340);
    unfold in_box; try lia; try reflexivity; vm_compute; easy.
Qed.
Theorem C114_orientation_long : forall l r o,
  (forall p, In p [l; r; o] -> Z.abs (px p) <= 1518500249 /\ Z.abs (py p) <= 1518500249) ->
  morient3 int64 l r o = Ok (Z.sgn (turn o r l)).
Proof.
  intros l r o B.
  pose proof (B l (or_introl eq_refl)). pose proof (B r (or_intror (or_introl eq_refl))).
  pose proof (B o (or_intror (or_intror (or_introl eq_refl)))).
  apply C114_orientation with (x0 := -1518500249) (y0 := -1518500249) (W := 3037000498) (H := 3037000498);
    unfold in_box; try lia; try reflexivity; vm_compute; easy.
Qed.

(** Over unsigned types of at least 32 bits the answer is never "left". *)
Theorem C114_orientation_unsigned_refuted :
  (forall t l r o, IntTypes.sgn (promote t) = false -> morient3 t l r o <> Ok o_left)
  /\ morient3 uint32 (P 1 0) (P 0 1) (P 0 0) = Ok o_right
  /\ morient3 uint32 (P 0 1) (P 1 0) (P 0 0) = Ok o_right.
Proof.
  split; [|split; vm_compute; reflexivity].
  intros t l r o S E. pose proof (promote_bits t) as HB.
  unfold morient3, mpsub, msub, morient, marea, mmul, msub in E. rewrite promote_idem in E.
  rewrite !iarith_unsigned in E by (assumption || lia). cbn [bind px py] in E.
  repeat (rewrite iarith_unsigned in E by (assumption || lia); cbn [bind px py] in E).
  injection E as E. unfold o_left in E.
  match type of E with Z.sgn (IntTypes.wrap ?t ?z) = _ => pose proof (wrap_in t z ltac:(lia)) as I end.
  unfold in_ity, ilow in I. rewrite S in I. lia.
Qed.

(** 16-bit coordinates: the promoted type is too small. *)
Theorem C114_orientation_short_refuted :
  let short := {| bits := 16; sgn := true |} in
  morient3 short (P 32767 32767) (P 32767 (-32768)) (P (-32768) (-32768)) = UB.
Proof. vm_compute. reflexivity. Qed.

(** *** Scalar products *)
Theorem C114_squared_length : forall t p, IntTypes.sgn (promote t) = true ->
  mdot t p p = if px p * px p + py p * py p <=? top t then Ok (px p * px p + py p * py p) else UB.
Proof.
  intros t p S. unfold mdot, mmul, madd.
  pose proof (Z.square_nonneg (px p)). pose proof (Z.square_nonneg (py p)).
  destruct (Z.leb_spec (px p * px p + py p * py p) (top t)) as [L|L].
  - rewrite (arith_ok t (px p * px p)) by (assumption || lia). cbn [bind]. rewrite Z.add_0_l.
    rewrite (arith_ok t (px p * px p)) by (assumption || lia). cbn [bind].
    rewrite (arith_ok t (py p * py p)) by (assumption || lia). cbn [bind].
    now rewrite arith_ok by (assumption || lia).
  - destruct (Z_le_gt_dec (px p * px p) (top t)); [|rewrite arith_ub by (assumption || lia); reflexivity].
    rewrite (arith_ok t (px p * px p)) by (assumption || lia). cbn [bind]. rewrite Z.add_0_l.
    rewrite (arith_ok t (px p * px p)) by (assumption || lia). cbn [bind].
    destruct (Z_le_gt_dec (py p * py p) (top t)); [|rewrite arith_ub by (assumption || lia); reflexivity].
    rewrite (arith_ok t (py p * py p)) by (assumption || lia). cbn [bind].
    now rewrite arith_ub by (assumption || lia).
Qed.
Theorem C114_dot : forall t l r, IntTypes.sgn (promote t) = true ->
  Z.abs (px l * px r) + Z.abs (py l * py r) <= top t ->
  mdot t l r = Ok (px l * px r + py l * py r).
Proof.
  intros t l r S B. unfold mdot, mmul, madd.
  rewrite (arith_ok t (px l * px r)) by (assumption || lia). cbn [bind]. rewrite Z.add_0_l.
  rewrite (arith_ok t (px l * px r)) by (assumption || lia). cbn [bind].
  rewrite (arith_ok t (py l * py r)) by (assumption || lia). cbn [bind].
  now rewrite arith_ok by (assumption || lia).
Qed.
(** A result that fits is not enough. *)
Theorem C114_dot_refuted :
  px (P 65536 65536) * px (P 65536 (-65536)) + py (P 65536 65536) * py (P 65536 (-65536)) = 0
  /\ mdot int32 (P 65536 65536) (P 65536 (-65536)) = UB.
Proof. split; vm_compute; reflexivity. Qed.

(** *** Lines through two points *)
(** Over narrow and unsigned types the end of the line is the second point, although the
    stored vector may be reduced modulo the width. *)
Theorem C114_end : forall t a b,
  0 < bits t <= 16 \/ (32 <= bits t /\ IntTypes.sgn t = false) ->
  in_ity t (px a) -> in_ity t (py a) -> in_ity t (px b) -> in_ity t (py b) ->
  exists l, mmake_line t a b = Ok l /\ mlend t l = Ok b.
Proof.
  intros t a b Hn Ax Ay Bx By. assert (Hb : 0 < bits t) by lia.
  assert (K : forall x y, in_ity t x -> in_ity t y -> exists d, iarith (promote t) (y - x) = Ok d
    /\ exists e, iarith (promote t) (x + IntTypes.wrap t d) = Ok e /\ IntTypes.wrap t e = y).
  { intros x y X Y. destruct Hn as [N|[N S]].
    - assert (HP : promote t = int32) by (unfold promote; destruct (Z.ltb_spec (bits t) 32); [reflexivity | lia]).
      assert (R : forall z, in_ity t z -> -65536 <= z < 65536).
      { intros z. unfold in_ity, ilow, ihigh.
        assert (2 ^ bits t <= 2 ^ 16) by (apply Z.pow_le_mono_r; lia).
        assert (2 ^ (bits t - 1) <= 2 ^ 16) by (apply Z.pow_le_mono_r; lia).
        change (2 ^ 16) with 65536 in *. destruct (IntTypes.sgn t); lia. }
      assert (I32 : forall z, -2147483648 <= z < 2147483648 -> iarith int32 z = Ok z)
        by (intros z Hz; apply iarith_in; exact Hz).
      rewrite HP. pose proof (R _ X). pose proof (R _ Y).
      pose proof (R _ (wrap_in t (y - x) Hb)).
      exists (y - x). rewrite I32 by lia. split; [reflexivity|].
      exists (x + IntTypes.wrap t (y - x)). rewrite I32 by lia. split; [reflexivity|].
      rewrite <- (wrap_id t y Hb Y) at 2. apply wrap_congr; [assumption|].
      rewrite mod_add_wrap by assumption. f_equal. lia.
    - assert (HP : promote t = t) by (unfold promote; destruct (Z.ltb_spec (bits t) 32); [lia | reflexivity]).
      rewrite HP. exists (IntTypes.wrap t (y - x)). rewrite iarith_unsigned by assumption. split; [reflexivity|].
      eexists. rewrite iarith_unsigned by assumption. split; [reflexivity|].
      rewrite <- (wrap_id t y Hb Y) at 2. apply wrap_congr; [assumption|].
      rewrite wrap_mod, !mod_add_wrap by assumption.
      f_equal. lia. }
  destruct (K _ _ Ax Bx) as (dx & E1 & ex & E2 & E3). destruct (K _ _ Ay By) as (dy & E4 & ey & E5 & E6).
  exists (L a (mconv t (P dx dy))). split.
  - unfold mmake_line, mpsub, msub. rewrite E1. cbn [bind]. rewrite E4. reflexivity.
  - unfold mlend, mpadd, madd. cbn [lbegin lvec mconv px py]. rewrite E2. cbn [bind]. rewrite E5. cbn [bind].
    unfold mconv. cbn [px py]. rewrite E3, E6. destruct b; reflexivity.
Qed.
(** Over signed types of at least 32 bits: if the differences fit; otherwise overflow. *)
Theorem C114_end_wide : forall t a b, 32 <= bits t -> IntTypes.sgn t = true ->
  in_ity t (px a) -> in_ity t (py a) -> in_ity t (px b) -> in_ity t (py b) ->
  (in_ity t (px b - px a) /\ in_ity t (py b - py a) ->
     exists l, mmake_line t a b = Ok l /\ lvec l = P (px b - px a) (py b - py a) /\ mlend t l = Ok b)
  /\ (~ (in_ity t (px b - px a) /\ in_ity t (py b - py a)) -> mmake_line t a b = UB).
Proof.
  intros t a b Hb S Ax Ay Bx By.
  assert (HP : promote t = t) by (unfold promote; destruct (Z.ltb_spec (bits t) 32); [lia | reflexivity]).
  unfold mmake_line, mpsub, msub. rewrite HP. split.
  - intros [Dx Dy]. rewrite (iarith_in _ _ Dx). cbn [bind]. rewrite (iarith_in _ _ Dy). cbn [bind].
    eexists. split; [reflexivity|]. cbn [lvec]. unfold mconv. cbn [px py].
    rewrite !wrap_id by (assumption || lia). split; [reflexivity|].
    unfold mlend, mpadd, madd. cbn [lbegin lvec px py]. rewrite HP.
    replace (px a + (px b - px a)) with (px b) by lia. replace (py a + (py b - py a)) with (py b) by lia.
    rewrite !iarith_in by assumption. cbn [bind]. unfold mconv. cbn [px py].
    rewrite !wrap_id by (assumption || lia). destruct b; reflexivity.
  - intros N. destruct (in_ityb t (px b - px a)) eqn:Ex.
    + apply in_ityb_spec in Ex. rewrite (iarith_in _ _ Ex). cbn [bind].
      rewrite iarith_signed by tauto. reflexivity.
    + rewrite iarith_signed; [reflexivity | assumption |]. rewrite <- in_ityb_spec. congruence.
Qed.
(** The vector of a line over a narrow type may point in the opposite direction. *)
Theorem C114_vector_refuted : exists l, mmake_line int8 (P (-100) 0) (P 100 0) = Ok l /\ lvec l = P (-56) 0.
Proof. exists (L (P (-100) 0) (P (-56) 0)). split; vm_compute; reflexivity. Qed.

(** *** Area of polygons *)
Theorem C114_area : forall t poly X Y, IntTypes.sgn (promote t) = true ->
  (forall p, In p poly -> Z.abs (px p) <= X /\ Z.abs (py p) <= Y) ->
  2 * Y <= top t -> Z.of_nat (length poly) * (2 * (X * Y)) <= top t ->
  mpolygon_area t poly = Ok (polygon_area poly).
Proof.
  intros t poly X Y S B HY HT. destruct poly as [|p l]; [reflexivity|].
  apply marea_loop_ok with (X := X) (Y := Y); [assumption | discriminate | assumption | assumption |].
  change (Z.abs 0) with 0. rewrite Z.add_0_l. exact HT.
Qed.
(** Over unsigned types the doubled area is right modulo the width, so a
    counter-clockwise polygon whose doubled area fits gets the right one. *)
Theorem C114_area_unsigned : forall t poly, IntTypes.sgn (promote t) = false ->
  exists z, mpolygon_area t poly = Ok z /\ in_ity (promote t) z
    /\ z mod 2 ^ bits (promote t) = polygon_area poly mod 2 ^ bits (promote t)
    /\ (0 <= polygon_area poly <= top t -> z = polygon_area poly).
Proof.
  intros t poly S. pose proof (promote_bits t).
  exists (IntTypes.wrap (promote t) (polygon_area poly)). split.
  - apply marea_loop_unsigned; [assumption|]. rewrite wrap_id; [reflexivity | lia|].
    unfold in_ity, ilow, ihigh. rewrite S. assert (0 < 2 ^ bits (promote t)) by (apply Z.pow_pos_nonneg; lia). lia.
  - split; [apply wrap_in; lia|]. split; [apply wrap_mod; lia|].
    intros B. apply wrap_id; [lia|]. unfold in_ity, ilow, top in *. rewrite S. lia.
Qed.
(** The coordinates, not the area, decide over signed types: a thin triangle overflows. *)
Theorem C114_area_refuted :
  let tri := [P 50000 0; P 50001 50000; P 50000 50000] in
  turn (P 50000 0) (P 50001 50000) (P 50000 50000) = 50000 /\ mpolygon_area int32 tri = UB.
Proof. split; vm_compute; reflexivity. Qed.

(** *** Convex hull *)
(** Points in a box whose sides fit the (signed) coordinate type and whose area fits the
    promoted type: the hull is as over unbounded integers. *)
Theorem C114_hull : forall t pts x0 y0 W H, 0 < bits t -> IntTypes.sgn t = true ->
  (forall p, In p pts -> in_box x0 y0 W H p) -> W < ihigh t -> H < ihigh t -> W * H <= top t ->
  (exists p q r, In p pts /\ In q pts /\ In r pts /\ turn p q r <> 0) ->
  exists h, mconvex_hull t pts = Ok h
    /\ (3 <= length h)%nat /\ incl h pts /\ NoDup h
    /\ (forall q, In q pts -> below (hd (P 0 0) h) q)
    /\ (forall i q, (i < length h)%nat -> In q pts ->
          0 <= turn (nth i h (P 0 0)) (nth ((i + 1) mod length h) h (P 0 0)) q)
    /\ (forall i, (i < length h)%nat ->
          0 < turn (nth i h (P 0 0)) (nth ((i + 1) mod length h) h (P 0 0)) (nth ((i + 2) mod length h) h (P 0 0))).
Proof.
  intros t pts x0 y0 W H Hb S F HW HH HA NC.
  rewrite (mconvex_hull_ok t x0 y0 W H Hb S HW HH HA) by now apply Forall_forall.
  now apply hull_main.
Qed.
Theorem C114_hull_same : forall t pts x0 y0 W H, 0 < bits t -> IntTypes.sgn t = true ->
  (forall p, In p pts -> in_box x0 y0 W H p) -> W < ihigh t -> H < ihigh t -> W * H <= top t ->
  mconvex_hull t pts = convex_hull pts.
Proof. intros. apply mconvex_hull_ok with x0 y0 W H; auto. now apply Forall_forall. Qed.
(** Wider boxes over 8-bit integers lose hull points without any error: the vector of the
    line through the extreme points is reduced. *)
Theorem C114_hull_narrow_refuted :
  mconvex_hull int8 [P (-100) 0; P 100 0; P 0 50] = Ok [P (-100) 0]
  /\ mconvex_hull int8 [P (-100) (-10); P 100 0; P 0 50; P 0 (-20)] = Ok [P (-100) (-10); P 0 (-20); P 100 0].
Proof. split; vm_compute; reflexivity. Qed.
(** Unsigned types: points are lost or the polygon is not convex. *)
Theorem C114_hull_unsigned_refuted :
  mconvex_hull uint8 [P 0 10; P 10 0; P 5 20; P 5 1] = Ok [P 0 10; P 5 1; P 10 0]
  /\ mconvex_hull uint32 [P 0 0; P 10 0; P 10 10; P 0 10; P 3 4] = Ok [P 0 0; P 10 10; P 10 0; P 3 4; P 0 10].
Proof. split; vm_compute; reflexivity. Qed.
(** A box of area above the greatest value: overflow. *)
Theorem C114_hull_bound_refuted :
  46341 * 46341 > top int32 /\ mconvex_hull int32 [P 0 0; P 46341 0; P 46341 46341; P 0 46341] = UB.
Proof. split; vm_compute; reflexivity. Qed.

Example C114_case :
  morient3 int32 (P 23170 23170) (P 23170 (-23170)) (P (-23170) (-23170)) = Ok o_right
  /\ mconvex_hull int32 [P 0 0; P 46340 0; P 46340 46340; P 0 46340; P 7 9]
     = Ok [P 0 0; P 46340 0; P 46340 46340; P 0 46340]
  /\ mconvex_hull int8 [P 0 (-20); P 100 0; P 50 50] = Ok [P 0 (-20); P 100 0; P 50 50]
  /\ (exists l, mmake_line int8 (P (-100) 0) (P 100 0) = Ok l /\ mlend int8 l = Ok (P 100 0))
  /\ mpolygon_area int32 [P 0 0; P 4 0; P 4 3; P 1 1; P 0 3] = Ok 16
  /\ mpolygon_area uint32 [P 50000 0; P 50001 50000; P 50000 50000] = Ok 50000
  /\ mdot int32 (P 46340 0) (P 46340 0) = Ok 2147395600 /\ mdot int32 (P 46340 300) (P 46340 300) = UB.
Proof.
  do 3 (split; [vm_compute; reflexivity|]).
  split; [exists (L (P (-100) 0) (P (-56) 0)); split; vm_compute; reflexivity|].
  do 3 (split; [vm_compute; reflexivity|]). vm_compute. reflexivity.
Qed.

Print Assumptions C114_orientation.
Print Assumptions C114_orientation_bound.
Print Assumptions C114_orientation_small.
Print Assumptions C114_orientation_int.
Print Assumptions C114_orientation_long.
Print Assumptions C114_orientation_unsigned_refuted.
Print Assumptions C114_orientation_short_refuted.
Print Assumptions C114_squared_length.
Print Assumptions C114_dot.
Print Assumptions C114_dot_refuted.
Print Assumptions C114_end.
Print Assumptions C114_end_wide.
Print Assumptions C114_vector_refuted.
Print Assumptions C114_area.
Print Assumptions C114_area_unsigned.
Print Assumptions C114_area_refuted.
Print Assumptions C114_hull.
Print Assumptions C114_hull_same.
Print Assumptions C114_hull_narrow_refuted.
Print Assumptions C114_hull_unsigned_refuted.
Print Assumptions C114_hull_bound_refuted.
