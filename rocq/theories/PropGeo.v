(** Orientation, polygon area and convex hull: C49, C50, C51. *)
From Coq Require Import ZArith List Bool Lia Permutation.
From Verif Require Import Outcome GeoModel HullProofs GeoProofs.
Import ListNotations.
Local Open Scope Z_scope.

(** ** C49 *)
(** Three points are on one line [A x + B y = C]. *)
Definition on_one_line (p q r : pt) : Prop :=
  exists A B C, (A <> 0 \/ B <> 0) /\ forall s, In s [p; q; r] -> A * px s + B * py s = C.

Lemma orient3_sgn l r o : orient3 l r o = Z.sgn (turn o r l).
Proof. unfold orient3, orient, area, turn, psub. cbn [px py]. f_equal; ring. Qed.

Theorem C49_swap : forall l r o,
  orient3 r l o = - orient3 l r o /\ orient3 l o r = - orient3 l r o /\ orient3 o r l = - orient3 l r o.
Proof.
  intros. rewrite !orient3_sgn, <- !Z.sgn_opp. repeat split; f_equal; unfold turn; ring.
Qed.
Theorem C49_cyclic : forall l r o, orient3 l r o = orient3 r o l.
Proof. intros. rewrite !orient3_sgn. f_equal. unfold turn; ring. Qed.
Theorem C49_translation : forall l r o v, orient3 (padd l v) (padd r v) (padd o v) = orient3 l r o.
Proof. intros. rewrite !orient3_sgn. f_equal. unfold turn, padd; cbn; ring. Qed.
Theorem C49_scaling : forall l r o k, k <> 0 ->
  orient3 (P (k * px l) (k * py l)) (P (k * px r) (k * py r)) (P (k * px o) (k * py o)) = orient3 l r o.
Proof.
  intros l r o k K. rewrite !orient3_sgn. unfold turn; cbn [px py].
  match goal with |- Z.sgn ?x = Z.sgn ?y => replace x with ((k * k) * y) by ring end.
  rewrite Z.sgn_mul, (Z.sgn_pos (k * k)) by nia. lia.
Qed.
(** Mirror images have the opposite orientation. *)
Theorem C49_mirror : forall l r o,
  orient3 (P (- px l) (py l)) (P (- px r) (py r)) (P (- px o) (py o)) = - orient3 l r o.
Proof. intros. rewrite !orient3_sgn, <- Z.sgn_opp. f_equal. unfold turn; cbn; ring. Qed.
Theorem C49_collinear : forall l r o, orient3 l r o = o_collinear <-> on_one_line l r o.
Proof.
  intros l r o. rewrite orient3_sgn. unfold o_collinear. rewrite Z.sgn_null_iff. split.
  - intros H. destruct (Z.eq_dec (px l) (px o)) as [E1|E1], (Z.eq_dec (py l) (py o)) as [E2|E2].
    + destruct (Z.eq_dec (px r) (px o)) as [E3|E3], (Z.eq_dec (py r) (py o)) as [E4|E4].
      2-4: (exists (py r - py o), (px o - px r), ((py r - py o) * px o + (px o - px r) * py o);
            split; [lia|]; intros s [<-|[<-|[<-|[]]]]; unfold turn in H; nia).
      exists 1, 0, (px o). split; [lia|]. intros s [<-|[<-|[<-|[]]]]; lia.
    + exists (py l - py o), (px o - px l), ((py l - py o) * px o + (px o - px l) * py o).
      split; [lia|]. intros s [<-|[<-|[<-|[]]]]; unfold turn in H; nia.
    + exists (py l - py o), (px o - px l), ((py l - py o) * px o + (px o - px l) * py o).
      split; [lia|]. intros s [<-|[<-|[<-|[]]]]; unfold turn in H; nia.
    + exists (py l - py o), (px o - px l), ((py l - py o) * px o + (px o - px l) * py o).
      split; [lia|]. intros s [<-|[<-|[<-|[]]]]; unfold turn in H; nia.
  - intros (A & B & C & N & H).
    assert (Hl := H l (or_introl eq_refl)). assert (Hr := H r (or_intror (or_introl eq_refl))).
    assert (Ho := H o (or_intror (or_intror (or_introl eq_refl)))).
    assert (KA : A * turn o r l = 0).
    { unfold turn. replace (A * _) with ((A * px r - A * px o) * (py l - py o) - (py r - py o) * (A * px l - A * px o)) by ring.
      replace (A * px r) with (C - B * py r) by lia. replace (A * px l) with (C - B * py l) by lia.
      replace (A * px o) with (C - B * py o) by lia. ring. }
    assert (KB : B * turn o r l = 0).
    { unfold turn. replace (B * _) with ((px r - px o) * (B * py l - B * py o) - (B * py r - B * py o) * (px l - px o)) by ring.
      replace (B * py r) with (C - A * px r) by lia. replace (B * py l) with (C - A * px l) by lia.
      replace (B * py o) with (C - A * px o) by lia. ring. }
    apply Z.mul_eq_0 in KA. apply Z.mul_eq_0 in KB. destruct N, KA, KB; auto; contradiction.
Qed.
(** The orientation of a point against a line only depends on the line and its direction,
    not on the points that span it. *)
Theorem C49_line_direction : forall p a b k, k <> 0 -> forall t,
  orient_pl p (L (P (px a + t * px b) (py a + t * py b)) (P (k * px b) (k * py b)))
  = Z.sgn k * orient_pl p (L a b).
Proof.
  intros p a b k K t. unfold orient_pl, orient. cbn [lbegin lvec]. rewrite <- Z.sgn_mul. f_equal.
  unfold area, psub. cbn [px py]. ring.
Qed.
Example C49_case :
  orient3 (P 1 5) (P 3 1) (P 0 0) = o_right /\ orient3 (P 3 1) (P 1 5) (P 0 0) = o_left
  /\ orient3 (P 2 4) (P 3 6) (P 1 2) = o_collinear.
Proof. repeat split; reflexivity. Qed.
Print Assumptions C49_swap.
Print Assumptions C49_cyclic.
Print Assumptions C49_translation.
Print Assumptions C49_scaling.
Print Assumptions C49_mirror.
Print Assumptions C49_collinear.
Print Assumptions C49_line_direction.

(** ** C50 *)
(** The formula of the library equals the sum of [x_i y_(i+1) - y_i x_(i+1)]. *)
Theorem C50_shoelace : forall poly, polygon_area poly = path_sum (poly ++ firstn 1 poly).
Proof. exact polygon_area_loop_sum. Qed.
(** The signed areas of the triangles with any common corner add up to it. *)
Theorem C50_fan : forall o poly, polygon_area poly = fan_sum o (poly ++ firstn 1 poly).
Proof. intros. rewrite fan_loop. apply polygon_area_loop_sum. Qed.
Theorem C50_rotate : forall l1 l2, polygon_area (l1 ++ l2) = polygon_area (l2 ++ l1).
Proof. intros. rewrite !polygon_area_loop_sum. apply loop_sum_rotate. Qed.
Theorem C50_reverse : forall l, polygon_area (rev l) = - polygon_area l.
Proof. intros. rewrite !polygon_area_loop_sum. apply loop_sum_rev. Qed.
Theorem C50_translation : forall v l, polygon_area (map (fun p => padd p v) l) = polygon_area l.
Proof. intros. rewrite !polygon_area_loop_sum. apply loop_sum_shift. Qed.
Theorem C50_scaling : forall k l, polygon_area (map (fun p => P (k * px p) (k * py p)) l) = k * k * polygon_area l.
Proof. intros. rewrite !polygon_area_loop_sum. apply loop_sum_scale. Qed.
Theorem C50_cut : forall a b l1 l2,
  polygon_area (a :: l1 ++ b :: l2) = polygon_area (a :: l1 ++ [b]) + polygon_area (b :: l2 ++ [a]).
Proof. intros. rewrite !polygon_area_loop_sum. apply loop_sum_cut. Qed.
(** A triangle: positive exactly if counter-clockwise; an axis-parallel rectangle has twice width times height. *)
Theorem C50_triangle : forall a b c,
  polygon_area [a; b; c] = (px b - px a) * (py c - py a) - (py b - py a) * (px c - px a).
Proof. intros. rewrite polygon_area_loop_sum. unfold loop_sum. cbn [app firstn path_sum px py]. ring. Qed.
Theorem C50_rectangle : forall x y w h,
  polygon_area [P x y; P (x + w) y; P (x + w) (y + h); P x (y + h)] = 2 * (w * h).
Proof. intros. rewrite polygon_area_loop_sum. unfold loop_sum. cbn [app firstn path_sum px py]. ring. Qed.
(** A vertex between its neighbours on a straight edge adds nothing. *)
Theorem C50_straight_vertex : forall a m b l, turn a m b = 0 ->
  polygon_area (a :: m :: b :: l) = polygon_area (a :: b :: l).
Proof.
  intros a m b l H. rewrite !(C50_fan a). cbn [app firstn]. cbn [fan_sum].
  rewrite H. unfold turn. ring.
Qed.
Example C50_case : polygon_area [P 0 0; P 4 0; P 4 3; P 1 1; P 0 3] = 16
  /\ polygon_area [P 0 0; P 4 0; P 4 3] + polygon_area [P 4 3; P 1 1; P 0 3; P 0 0] = 16.
Proof. split; reflexivity. Qed.
Print Assumptions C50_shoelace.
Print Assumptions C50_fan.
Print Assumptions C50_rotate.
Print Assumptions C50_reverse.
Print Assumptions C50_translation.
Print Assumptions C50_scaling.
Print Assumptions C50_cut.
Print Assumptions C50_triangle.
Print Assumptions C50_rectangle.
Print Assumptions C50_straight_vertex.

(** ** C51 *)
(** Points not all on one line: the hull is a counter-clockwise strictly convex polygon
    of distinct input points that starts with the least point and has no input point
    outside. *)
Theorem C51_hull : forall pts,
  (exists p q r, In p pts /\ In q pts /\ In r pts /\ turn p q r <> 0) ->
  exists h, convex_hull pts = Ok h
    /\ (3 <= length h)%nat /\ incl h pts /\ NoDup h
    /\ (forall q, In q pts -> below (hd (P 0 0) h) q)
    /\ (forall i q, (i < length h)%nat -> In q pts ->
          0 <= turn (nth i h (P 0 0)) (nth ((i + 1) mod length h) h (P 0 0)) q)
    /\ (forall i, (i < length h)%nat ->
          0 < turn (nth i h (P 0 0)) (nth ((i + 1) mod length h) h (P 0 0)) (nth ((i + 2) mod length h) h (P 0 0))).
Proof. exact hull_main. Qed.

(** Its area is positive. *)
Theorem C51_area : forall pts h,
  (exists p q r, In p pts /\ In q pts /\ In r pts /\ turn p q r <> 0) ->
  convex_hull pts = Ok h -> 0 < polygon_area h.
Proof.
  intros pts h NC E. destruct (hull_main pts NC) as (h' & E' & L & I & _ & _ & C & T).
  assert (h' = h) by congruence. subst h'. apply convex_area_pos; auto.
  specialize (T O ltac:(lia)). rewrite !Nat.mod_small in T by lia. exact T.
Qed.

(** Every vertex is needed: it is no weighted average of input points other than itself. *)
Definition weight (ws : list (Z * pt)) : Z := fold_right (fun wp r => fst wp + r) 0 ws.
Definition mass_x (ws : list (Z * pt)) : Z := fold_right (fun wp r => fst wp * px (snd wp) + r) 0 ws.
Definition mass_y (ws : list (Z * pt)) : Z := fold_right (fun wp r => fst wp * py (snd wp) + r) 0 ws.

Lemma average_on_line u v ws :
  (forall w p, In (w, p) ws -> 0 < w /\ 0 <= turn u v p) ->
  0 <= fold_right (fun wp r => fst wp * turn u v (snd wp) + r) 0 ws
  /\ (fold_right (fun wp r => fst wp * turn u v (snd wp) + r) 0 ws = 0 ->
      forall w p, In (w, p) ws -> turn u v p = 0).
Proof.
  induction ws as [|[w p] ws IH]; intros H; cbn [fold_right fst snd].
  - split; [lia | easy].
  - destruct IH as [I1 I2]; [intros; apply H; now right|].
    destruct (H w p (or_introl eq_refl)) as [Hw Hp].
    assert (0 <= w * turn u v p) by (apply Z.mul_nonneg_nonneg; lia).
    split; [lia|]. intros Z0 w' p' [E|E].
    + inversion E; subst. assert (M : w' * turn u v p' = 0) by lia. apply Z.mul_eq_0 in M. lia.
    + apply (I2 ltac:(lia) w' p' E).
Qed.
Lemma average_turn u v ws :
  fold_right (fun wp r => fst wp * turn u v (snd wp) + r) 0 ws
  = (px v - px u) * (mass_y ws - weight ws * py u) - (py v - py u) * (mass_x ws - weight ws * px u).
Proof.
  induction ws as [|[w p] ws IH]; cbn [fold_right fst snd mass_x mass_y weight] in *; [ring|].
  rewrite IH. unfold turn, mass_x, mass_y, weight. ring.
Qed.

Theorem C51_vertex_extreme : forall pts h,
  (exists p q r, In p pts /\ In q pts /\ In r pts /\ turn p q r <> 0) ->
  convex_hull pts = Ok h -> forall v, In v h -> forall ws,
  (forall w p, In (w, p) ws -> 0 < w /\ In p pts) ->
  mass_x ws = weight ws * px v -> mass_y ws = weight ws * py v ->
  forall w p, In (w, p) ws -> p = v.
Proof.
  intros pts h NC E v Hv ws Hws Mx My w p Hp.
  destruct (hull_main pts NC) as (h' & E' & L & _ & _ & _ & C & T).
  assert (h' = h) by congruence. subst h'.
  destruct (In_nth h v (P 0 0) Hv) as (j & Hj & Nj).
  set (n := length h) in *. set (i := ((j + (n - 1)) mod n)%nat).
  assert (Hi : (i < n)%nat) by (apply Nat.mod_upper_bound; lia).
  assert (Ej : ((i + 1) mod n = j)%nat).
  { unfold i. rewrite Nat.add_mod_idemp_l by lia.
    replace (j + (n - 1) + 1)%nat with (j + 1 * n)%nat by lia.
    rewrite Nat.mod_add, Nat.mod_small by lia. reflexivity. }
  assert (Ek : ((i + 2) mod n = (j + 1) mod n)%nat).
  { unfold i. rewrite Nat.add_mod_idemp_l by lia.
    replace (j + (n - 1) + 2)%nat with (j + 1 + 1 * n)%nat by lia. now rewrite Nat.mod_add by lia. }
  specialize (T i Hi). rewrite Ej, Ek, Nj in T.
  set (u := nth i h (P 0 0)) in *. set (x := nth ((j + 1) mod n) h (P 0 0)) in *.
  assert (C1 : forall q, In q pts -> 0 <= turn u v q).
  { intros q Hq. specialize (C i q Hi Hq). now rewrite Ej, Nj in C. }
  assert (C2 : forall q, In q pts -> 0 <= turn v x q).
  { intros q Hq. specialize (C j q Hj Hq). now rewrite Nj in C. }
  assert (Z1 : turn u v p = 0).
  { apply (proj2 (average_on_line u v ws ltac:(intros; split; [now apply (Hws w0 p0) | apply C1; now apply (Hws w0 p0)]))) with w; auto.
    rewrite average_turn, Mx, My. ring. }
  assert (Z2 : turn v x p = 0).
  { apply (proj2 (average_on_line v x ws ltac:(intros; split; [now apply (Hws w0 p0) | apply C2; now apply (Hws w0 p0)]))) with w; auto.
    rewrite average_turn, Mx, My. ring. }
  (* two lines that meet in [v] only *)
  unfold turn in T, Z1, Z2.
  set (ax := px v - px u) in *. set (ay := py v - py u) in *.
  set (bx := px x - px v) in *. set (by_ := py x - py v) in *.
  set (dx := px p - px v). set (dy := py p - py v).
  assert (D : 0 < ax * by_ - ay * bx) by (unfold ax, ay, bx, by_ in *; lia).
  assert (A1 : ax * dy = ay * dx) by (unfold ax, ay, dx, dy in *; nia).
  assert (A2 : bx * dy = by_ * dx) by (unfold bx, by_, dx, dy in *; nia).
  assert (X0 : (ax * by_ - ay * bx) * dx = 0).
  { replace ((ax * by_ - ay * bx) * dx) with (ax * (by_ * dx) - bx * (ay * dx)) by ring. rewrite <- A1, <- A2. ring. }
  assert (Y0 : (ax * by_ - ay * bx) * dy = 0).
  { replace ((ax * by_ - ay * bx) * dy) with (by_ * (ax * dy) - ay * (bx * dy)) by ring. rewrite A1, A2. ring. }
  apply Z.mul_eq_0 in X0. apply Z.mul_eq_0 in Y0. apply pt_eq; unfold dx, dy in *; lia.
Qed.
(** The hypotheses of the previous theorem in a case with [v] among the points. *)
Example C51_vertex_case : let ws := [(2, P 0 0); (3, P 0 0)] in
  mass_x ws = weight ws * 0 /\ mass_y ws = weight ws * 0.
Proof. split; reflexivity. Qed.

(** Finding: for two or more points on one line only the least one is returned, although
    the other end is a vertex of the hull too. *)
Theorem C51_collinear_refuted : forall pts, (2 <= length pts)%nat ->
  (forall p q r, In p pts -> In q pts -> In r pts -> turn p q r = 0) ->
  exists m, convex_hull pts = Ok [m] /\ In m pts /\ forall q, In q pts -> below m q.
Proof. exact hull_collinear. Qed.
Theorem C51_two_points_refuted :
  exists pts h, convex_hull pts = Ok h /\ exists q, In q pts /\ ~ In q h
    /\ forall x y, In x h -> In y h -> turn x y q = 0 /\ ~ (below x q /\ below q y).
Proof.
  exists [P 0 0; P 3 1], [P 0 0]. split; [reflexivity|]. exists (P 3 1).
  split; [now (right; left)|]. split; [intros [H|[]]; discriminate|].
  intros x y [<-|[]] [<-|[]]. split; [reflexivity|]. unfold below. cbn. lia.
Qed.

Example C51_case :
  convex_hull [P 1 1; P 4 0; P 2 2; P 0 0; P 4 4; P 2 0; P 0 4; P 4 4]
  = Ok [P 0 0; P 4 0; P 4 4; P 0 4]
  /\ turn (P 1 1) (P 4 0) (P 2 2) <> 0.
Proof. split; [reflexivity | discriminate]. Qed.
Print Assumptions C51_hull.
Print Assumptions C51_area.
Print Assumptions C51_vertex_extreme.
Print Assumptions C51_collinear_refuted.
Print Assumptions C51_two_points_refuted.
