(** C130: hull, area, point location and sorting by angle over floating point numbers. *)
From Coq Require Import ZArith QArith Qabs List Bool Lia Lqa Permutation Sorted.
From Verif Require Import Outcome FGeoModel FGeoProofs GeoModel HullProofs PolyModel MGeoProofs PolyProofs WindProofs ConvexProofs AngleProofs
  PropPoly FPolyModel FPolyProofs FHullProofs.
Import ListNotations.
Local Open Scope Z_scope.

(** [grid e p]: the point with coordinates [x 2^e] and [y 2^e]; [num_lt], [before]: the order of
    numbers and the lexicographical order of points; [numeric]: no coordinate is NaN. *)

(** The format has all multiples of 2^e and of 2^(2 e) up to 2^prec of them. *)
Definition fine (f : format) (e : Z) : Prop :=
  1 <= prec f /\ emin f <= e /\ emin f <= e + e /\ prec f + e < emax f /\ prec f + (e + e) < emax f.
(** The points are in a box of W x H steps with W H at most 2^prec. *)
Definition fit (f : format) (pts : list pt) : Prop :=
  exists x0 y0 W H, (forall q, In q pts -> in_box x0 y0 W H q) /\
    W <= 2 ^ prec f /\ H <= 2 ^ prec f /\ W * H <= 2 ^ prec f.

Lemma fit_box f e pts : fine f e -> fit f pts -> exists box : pt -> Prop, (forall q, In q pts -> box q) /\
  forall l r o, box l -> box r -> box o -> forient3 f (grid e l) (grid e r) (grid e o) = orient3 l r o.
Proof.
  intros (Hp & E1 & E2 & M1 & M2) (x0 & y0 & W & H & B & HW & HH & HA).
  exists (in_box x0 y0 W H). split; [exact B|]. intros. now apply forient3_grid with (x0 := x0) (y0 := y0) (W := W) (H := H).
Qed.

(** *** Convex hull *)
(** Points of the grid not all on one line: the hull is exact. *)
Theorem C130_hull : forall f e pts, fine f e -> fit f pts ->
  (exists p q r, In p pts /\ In q pts /\ In r pts /\ turn p q r <> 0) ->
  exists h, fconvex_hull f (map (grid e) pts) = Ok (map (grid e) h)
    /\ (3 <= length h)%nat /\ incl h pts /\ NoDup h
    /\ (forall q, In q pts -> below (hd (P 0 0) h) q)
    /\ (forall i q, (i < length h)%nat -> In q pts ->
          0 <= turn (nth i h (P 0 0)) (nth ((i + 1) mod length h) h (P 0 0)) q)
    /\ (forall i, (i < length h)%nat ->
          0 < turn (nth i h (P 0 0)) (nth ((i + 1) mod length h) h (P 0 0)) (nth ((i + 2) mod length h) h (P 0 0))).
Proof.
  intros f e pts Fi Ft NC. destruct (fit_box f e pts Fi Ft) as (box & B & OR).
  destruct (hull_main pts NC) as (h & E & R). exists h. split; [|exact R].
  rewrite (fhull_grid f e box OR) by now apply Forall_forall. now rewrite E.
Qed.
(** Any points without NaN, infinite ones included: no assertion fails, the result consists of
    input points and begins with a least one. *)
Theorem C130_hull_total : forall f pts d, pts <> [] -> Forall numeric pts ->
  exists h, fconvex_hull f pts = Ok h /\ h <> [] /\ incl h pts /\ forall q, In q pts -> ~ before q (hd d h).
Proof.
  intros f pts d N F. destruct (fhull_total f pts d N F) as (h & E & N' & I & L). exists h. repeat split; auto.
  intros q Q B. apply fpless_spec in B. rewrite (L q Q) in B. discriminate.
Qed.
(** Finding: nothing more holds in general. For five doubles near a line the greatest point, (24, 24),
    is lost, and the result lies left of 13. *)
Definition dbl (m : Z) : Q := inject_Z m * 2 ^ (-54).
Definition near_line : list (Q * Q) :=
  [(dbl (2 ^ 53 + 74), dbl (2 ^ 53 + 56)); (12, 12); (24, 24);
   (dbl (24 * 2 ^ 53 - 256), dbl (24 * 2 ^ 53 + 96)); (dbl (2 ^ 53 - 6), dbl (2 ^ 53 - 18))]%Q.
Theorem C130_hull_lost_refuted :
  Forall (fun p => representable double (fst p) /\ representable double (snd p)) near_line /\
  exists h, fconvex_hull double (map (fun p => FP (Fin (fst p)) (Fin (snd p))) near_line) = Ok h /\
    length h = 4%nat /\ forall p, In p h -> num_lt (fx p) (Fin 13) /\ num_lt (fy p) (Fin 13).
Proof.
  split.
  - assert (K : forall m, Z.abs m < 2 ^ 53 -> forall s, -1074 <= s -> forall q, (q == inject_Z m * 2 ^ s)%Q -> representable double q).
    { intros m M s S1 q Q. exists m, s. repeat split; auto. }
    unfold near_line. repeat (apply Forall_cons; [split; cbn [fst snd]|]); try apply Forall_nil.
    + apply (K (2 ^ 52 + 37)) with (-53); [reflexivity | lia | vm_compute; reflexivity].
    + apply (K (2 ^ 52 + 28)) with (-53); [reflexivity | lia | vm_compute; reflexivity].
    + apply (K 12) with 0; [reflexivity | lia | vm_compute; reflexivity].
    + apply (K 12) with 0; [reflexivity | lia | vm_compute; reflexivity].
    + apply (K 24) with 0; [reflexivity | lia | vm_compute; reflexivity].
    + apply (K 24) with 0; [reflexivity | lia | vm_compute; reflexivity].
    + apply (K (3 * 2 ^ 51 - 8)) with (-49); [reflexivity | lia | vm_compute; reflexivity].
    + apply (K (3 * 2 ^ 51 + 3)) with (-49); [reflexivity | lia | vm_compute; reflexivity].
    + apply (K (2 ^ 53 - 6)) with (-54); [reflexivity | lia | vm_compute; reflexivity].
    + apply (K (2 ^ 53 - 18)) with (-54); [reflexivity | lia | vm_compute; reflexivity].
  - eexists. split; [vm_compute; reflexivity|]. split; [reflexivity|].
    intros p Q. cbn [In] in Q. repeat destruct Q as [<-|Q]; try contradiction; split; vm_compute; reflexivity.
Qed.

(** *** Area *)
(** The doubled area is exact if coordinates and the number of vertices are small enough. *)
Theorem C130_area : forall f e poly X Y, fine f e ->
  (forall p, In p poly -> Z.abs (px p) <= X /\ Z.abs (py p) <= Y) -> 2 * Y <= 2 ^ prec f ->
  Z.of_nat (length poly) * (2 * (X * Y)) <= 2 ^ prec f ->
  exists q, fpolygon_area f (map (grid e) poly) = Fin q /\ (q == inject_Z (polygon_area poly) * 2 ^ (e + e))%Q.
Proof. intros f e poly X Y (Hp & E1 & E2 & M1 & M2) B HY HT. now apply (fpolygon_area_at f e) with X Y. Qed.
(** Finding: coordinates, not the area, decide: a counter-clockwise triangle of integers in a box of
    3 x 23 gets a negative area, while its orientation is found right. *)
Theorem C130_area_refuted :
  let t := [P (2 ^ 52 + 11) 23; P (2 ^ 52 + 11) 21; P (2 ^ 52 + 14) 0] in
  polygon_area t = 6 /\ fpolygon_area double (map (grid 0) t) = Fin (-4) /\
  forientation_simple double (map (grid 0) t) = Ok o_left.
Proof. vm_compute. repeat split. Qed.

(** *** Point location *)
Theorem C130_winding : forall f e p poly, fine f e -> fit f (p :: poly) ->
  fwinding_number f (grid e p) (map (grid e) poly) = winding_number p poly.
Proof.
  intros f e p poly Fi Ft. destruct (fit_box f e _ Fi Ft) as (box & B & OR). apply (fwinding_grid f e box OR); [apply B; now left|].
  apply Forall_forall. intros. apply B. now right.
Qed.
(** A convex polygon on the grid is decided right. *)
Theorem C130_convex_polygon : forall f e p poly, fine f e -> fit f (p :: poly) -> convex poly ->
  (fwithin_simple f (grid e p) (map (grid e) poly) = Border <-> exists a b, poly_edge poly a b /\ on_seg p a b) /\
  (fwithin_simple f (grid e p) (map (grid e) poly) = Inside <-> forall a b, poly_edge poly a b -> 0 < turn a b p).
Proof.
  intros f e p poly Fi Ft C. unfold fwithin_simple. rewrite C130_winding by assumption.
  split; [apply C87_border | now apply C87_inside].
Qed.
Theorem C130_triangle : forall f e p a b c, fine f e -> fit f [p; a; b; c] -> turn a b c <> 0 ->
  fwithin_triangle f (grid e p) [grid e a; grid e b; grid e c] = Ok (within_simple p [a; b; c]).
Proof.
  intros f e p a b c Fi Ft T. destruct (fit_box f e _ Fi Ft) as (box & B & OR). rewrite <- C87_triangle by assumption.
  apply (fwithin_triangle_grid f e box OR p [a; b; c]); [apply B; now left|]. apply Forall_forall. intros. apply B. now right.
Qed.
(** Both binary searches agree with it on a convex polygon prepared for them. *)
Theorem C130_located : forall f e poly p m r, fine f e -> fit f (p :: poly) -> convex poly -> to_monotone poly = (m, r) ->
  fwithin_convex f (grid e p) (map (grid e) m) (Z.to_nat r) = Ok (within_simple p poly) /\
  fwithin_monotone f (grid e p) (map (grid e) m) (Z.to_nat r) = Ok (within_simple p poly).
Proof.
  intros f e poly p m r Fi Ft C M. destruct (fit_box f e _ Fi Ft) as (box & B & OR).
  rewrite <- (C88_convex poly p m r C M) at 1. rewrite <- (C88_monotone poly p m r C M).
  destruct (to_monotone_spec poly) as (l1 & l2 & k & P1 & P2 & K & Mn & Mx); [destruct C; lia|].
  rewrite P2 in M. injection M as <- <-. rewrite Nat2Z.id.
  assert (C' : convex (l2 ++ l1)) by (apply convex_rotate; now rewrite <- P1).
  assert (Ins : forall q, In q (l2 ++ l1) <-> In q poly) by (intros q; rewrite P1, !in_app_iff; tauto).
  assert (LL : length (l2 ++ l1) = length poly) by (rewrite P1, !app_length; lia).
  apply (fwithin_grid f e box OR); [apply B; now left| |].
  - apply Forall_forall. intros q Q. apply B. right. now apply Ins.
  - split; [|lia]. destruct k as [|k]; [exfalso|lia].
    destruct (l2 ++ l1) as [|v0 [|y rest]]; [destruct C' as [Q _]; cbn in Q; lia..|].
    cbn in Mn, Mx. destruct C' as [Q T].
    assert (Y : In y poly) by (apply Ins; right; left; reflexivity).
    assert (v0 = y) by (apply below_anti; auto). subst y.
    specialize (T 0 1 2)%nat. unfold at_, turn in T. cbn [nth] in T. cbn in Q. specialize (T ltac:(lia) Q). lia.
Qed.
(** Polygons of less than two vertices. *)
Theorem C130_few_vertices : forall f e p a r, fine f e ->
  fwithin_convex f (grid e p) [] r = Ok Outside /\ fwithin_monotone f (grid e p) [] r = Ok Outside /\
  (p = a -> fwithin_convex f (grid e p) [grid e a] r = Ok Border /\ fwithin_monotone f (grid e p) [grid e a] r = Ok Border) /\
  (p <> a -> fwithin_convex f (grid e p) [grid e a] r = Ok Outside /\ fwithin_monotone f (grid e p) [grid e a] r = Ok Outside).
Proof.
  intros f e p a r Fi. split; [reflexivity|]. split; [reflexivity|]. unfold fwithin_convex, fwithin_monotone. rewrite fpeq_grid.
  split; intros E.
  - subst a. unfold peq. rewrite !Z.eqb_refl. auto.
  - assert (X : peq p a = false); [|rewrite X; auto]. unfold peq. destruct (Z.eqb_spec (px p) (px a)), (Z.eqb_spec (py p) (py a)); try reflexivity.
    exfalso. apply E. destruct p, a. cbn in *. congruence.
Qed.
Print Assumptions C130_few_vertices.
Theorem C130_orientation : forall f e poly, fine f e -> fit f poly -> convex poly ->
  forientation_simple f (map (grid e) poly) = Ok o_left /\ forientation_simple f (map (grid e) (rev poly)) = Ok o_right.
Proof.
  intros f e poly Fi Ft C. destruct (fit_box f e _ Fi Ft) as (box & B & OR).
  rewrite !(forientation_grid f e box OR) by (apply Forall_forall; intros q Q; apply B; auto; now apply in_rev).
  now apply C90_simple.
Qed.

(** *** Sorting by angle *)
(** Only the products of coordinates have to fit. *)
Lemma origin_grid e x : (neq (fx (grid e x)) (Fin 0) && neq (fy (grid e x)) (Fin 0) = (px x =? 0) && (py x =? 0)) /\
  fy_compare fzero (grid e x) = y_compare (P 0 0) x.
Proof.
  assert (Z0 : (0 == inject_Z 0 * 2 ^ e)%Q) by (change (inject_Z 0) with 0%Q; ring).
  assert (N1 : forall n, nless (Fin 0) n = nless (Fin (inject_Z 0 * 2 ^ e)) n).
  { intros [q|n|]; cbn [nless]; try reflexivity. now rewrite (Qcompare_comp _ _ Z0 _ _ (Qeq_refl q)). }
  assert (N2 : forall n, nless n (Fin 0) = nless n (Fin (inject_Z 0 * 2 ^ e))).
  { intros [q|n|]; cbn [nless]; try reflexivity. now rewrite (Qcompare_comp _ _ (Qeq_refl q) _ _ Z0). }
  assert (N3 : forall n, neq n (Fin 0) = neq n (Fin (inject_Z 0 * 2 ^ e))).
  { intros [q|n|]; cbn [neq]; try reflexivity. now rewrite (Qcompare_comp _ _ (Qeq_refl q) _ _ Z0). }
  split.
  - rewrite !N3. unfold grid. cbn [fx fy]. now rewrite !neq_grid.
  - rewrite <- (fy_compare_grid e). unfold fy_compare, fzero, ncompare. cbn [fx fy grid px py]. now rewrite !N1, !N2.
Qed.
Theorem C130_sorted : forall f e pts X Y, fine f e ->
  (forall q, In q pts -> Z.abs (px q) <= X /\ Z.abs (py q) <= Y) -> X * Y <= 2 ^ prec f ->
  exists r, fsort_by_angle f (map (grid e) pts) = map (grid e) r /\ Permutation r pts /\ StronglySorted angle_le r.
Proof.
  intros f e pts X Y (Hp & E1 & E2 & M1 & M2) B T. exists (sort_by_angle pts). split; [|apply C91_sorted].
  assert (L : forall a b, In a pts -> In b pts -> fleft_turn f (grid e a) (grid e b) = left_turn a b).
  { intros a b Ia Ib. apply B in Ia, Ib. unfold fleft_turn, left_turn. rewrite forient_grid; auto.
    - etransitivity; [apply (abs_mul_le _ _ X Y); lia | exact T].
    - etransitivity; [apply (abs_mul_le _ _ Y X); lia | lia]. }
  unfold fsort_by_angle, sort_by_angle.
  rewrite (filter_grid e (fun x => (px x =? 0) && (py x =? 0))) by (intros; apply origin_grid).
  rewrite (filter_grid e (fun x => negb ((px x =? 0) && (py x =? 0)))) by (intros; f_equal; apply origin_grid).
  rewrite (filter_grid e (y_compare (P 0 0))) by (intros; apply origin_grid).
  rewrite (filter_grid e (fun x => negb (y_compare (P 0 0) x))) by (intros; f_equal; apply origin_grid).
  rewrite !(fsort_grid e left_turn (fleft_turn f) pts L), !map_app; [reflexivity| |];
    intros q Q; apply filter_In in Q as [Q _]; now apply filter_In in Q.
Qed.
(** Finding: for larger coordinates the comparator is no strict weak order, so std::sort may not be used
    with it: every vector is equivalent to the next one, but the first is before the third. *)
Theorem C130_angle_order_refuted :
  let v := fun n => grid 0 (P n (n - 1)) in
  let equivalent := fun a b => fleft_turn double a b = false /\ fleft_turn double b a = false in
  let n := 94906267 in
  equivalent (v n) (v (n + 1)) /\ equivalent (v (n + 1)) (v (n + 2)) /\ ~ equivalent (v n) (v (n + 2)).
Proof. split; [split; vm_compute; reflexivity|]. split; [split; vm_compute; reflexivity|]. vm_compute. intros [A B]. discriminate. Qed.

(** A square of halves with doubles, and the bounds of double and float. *)
Lemma fine_double e : -500 <= e <= 400 -> fine double e.
Proof. unfold fine, double. cbn [prec emin emax]. lia. Qed.
Example C130_case :
  fine double (-1) /\ fine single 0 /\ ~ fine single 60 /\
  fit double [P 2 2; P (-3) (-3); P 3 (-3); P 3 3; P (-3) 3] /\
  fconvex_hull double (map (grid (-1)) [P 2 2; P 3 (-3); P (-3) (-3); P 3 3; P (-3) 3])
    = Ok (map (grid (-1)) [P (-3) (-3); P 3 (-3); P 3 3; P (-3) 3]) /\
  fpolygon_area double (map (grid (-1)) [P (-3) (-3); P 3 (-3); P 3 3; P (-3) 3]) = Fin 18 /\
  fwithin_simple double (grid (-1) (P 2 2)) (map (grid (-1)) [P (-3) (-3); P 3 (-3); P 3 3; P (-3) 3]) = Inside /\
  fwithin_triangle double (grid (-1) (P 5 2)) (map (grid (-1)) [P (-3) (-3); P 3 (-3); P 3 3]) = Ok Outside /\
  fwithin_convex double (grid (-1) (P 3 2)) (map (grid (-1)) [P (-3) (-3); P 3 (-3); P 3 3; P (-3) 3]) 2 = Ok Border /\
  fsort_by_angle double (map (grid (-1)) [P 5 (-7); P 0 0; P (-3) 2; P 20 9]) = map (grid (-1)) [P 0 0; P 20 9; P (-3) 2; P 5 (-7)] /\
  (exists h, fconvex_hull double [FP (Inf true) (Fin 1); FP (Fin 3) (Inf false); FP (Fin 0) (Fin 0)] = Ok h).
Proof.
  split; [apply fine_double; lia|]. split; [unfold fine, single; cbn [prec emin emax]; lia|]. split; [unfold fine, single; cbn [prec emin emax]; lia|]. split.
  { exists (-3), (-3), 6, 6. split; [|vm_compute; repeat split; discriminate].
    intros q Q. cbn in Q. unfold in_box. repeat destruct Q as [<-|Q]; cbn; lia || contradiction. }
  do 6 (split; [vm_compute; reflexivity|]). eexists. vm_compute. reflexivity.
Qed.

Print Assumptions C130_hull.
Print Assumptions C130_hull_total.
Print Assumptions C130_hull_lost_refuted.
Print Assumptions C130_area.
Print Assumptions C130_area_refuted.
Print Assumptions C130_winding.
Print Assumptions C130_convex_polygon.
Print Assumptions C130_triangle.
Print Assumptions C130_located.
Print Assumptions C130_orientation.
Print Assumptions C130_sorted.
Print Assumptions C130_angle_order_refuted.
