(** Winding numbers, point location, orientation of polygons, sorting by angle and the closest
    pair of points: C86 to C92. *)
From Coq Require Import ZArith List Bool Lia Permutation Sorted.
From Verif Require Import Outcome GeoModel HullProofs GeoProofs PolyModel PolyProofs WindProofs ConvexProofs AngleProofs NearestProofs.
Import ListNotations.
Local Open Scope Z_scope.

(** ** C86 *)
Theorem C86_boundary : forall p poly, winding_number p poly = Boundary <-> exists a b, poly_edge poly a b /\ on_seg p a b.
Proof.
  intros p poly. pose proof (winding_spec p poly) as S. destruct (winding_number p poly) as [|r].
  - split; auto.
  - split; [discriminate|]. intros (a & b & E & O). destruct S as [_ S]. now apply S in E.
Qed.
(** Crossings of the ray to the right: up with plus, down with minus. *)
Theorem C86_crossings : forall p poly n, winding_number p poly = Wind n -> n = wsum p (closed poly).
Proof. intros p poly n H. pose proof (winding_spec p poly) as S. rewrite H in S. apply S. Qed.
(** It does not matter at which vertex the list begins. *)
Theorem C86_rotation : forall p l1 l2, winding_number p (l1 ++ l2) = winding_number p (l2 ++ l1).
Proof. apply winding_rotate. Qed.
(** Opposite direction. *)
Theorem C86_reversal : forall p poly n, winding_number p poly = Wind n <-> winding_number p (rev poly) = Wind (- n).
Proof.
  intros p poly n. rewrite winding_rev. destruct (winding_number p poly); cbn; split; intros H; try discriminate;
    injection H as H; f_equal; lia.
Qed.
(** Cutting along a chord: the numbers of the parts add up. *)
Theorem C86_chord : forall p a b l1 l2 m n, winding_number p (a :: l1 ++ [b]) = Wind m ->
  winding_number p (a :: b :: l2) = Wind n -> winding_number p (a :: l1 ++ b :: l2) = Wind (m + n).
Proof.
  intros p a b l1 l2 m n H1 H2. pose proof (winding_spec p (a :: l1 ++ [b])) as S1. pose proof (winding_spec p (a :: b :: l2)) as S2.
  rewrite H1 in S1. rewrite H2 in S2. destruct S1 as [-> N1], S2 as [-> N2].
  pose proof (winding_spec p (a :: l1 ++ b :: l2)) as S. destruct (winding_number p (a :: l1 ++ b :: l2)) as [|r].
  - exfalso. destruct S as (u & v & E & O). unfold poly_edge, closed in *. cbn [firstn app] in *.
    rewrite <- app_assoc in *. cbn [app] in *.
    change (a :: l1 ++ b :: l2 ++ [a]) with ((a :: l1) ++ b :: (l2 ++ [a])) in E.
    apply (proj1 (path_edge_app _ _ _ _ _)) in E as [E|E].
    + apply (N1 u v); auto. change (a :: l1 ++ [b; a]) with ((a :: l1) ++ b :: [a]). apply (proj2 (path_edge_app _ _ _ _ _)). now left.
    + apply (N2 u v); auto. apply path_edge_cons. now right.
  - destruct S as [-> _]. f_equal. apply wsum_cut.
Qed.
(** Zero if a line separates the point from the vertices. *)
Theorem C86_half_plane : forall p poly u v,
  (forall q, In q poly -> 0 < u * (px q - px p) + v * (py q - py p)) -> winding_number p poly = Wind 0.
Proof. apply winding_half_plane. Qed.
(** The same for all the points that can be reached without meeting the border. *)
Theorem C86_constant : forall p q poly, (forall a b, poly_edge poly a b -> ~ meet p q a b) ->
  exists n, winding_number p poly = Wind n /\ winding_number q poly = Wind n.
Proof. apply winding_segment. Qed.
Definition spiral := [P 0 0; P 10 0; P 10 10; P 0 10; P 0 0; P 8 2; P 8 8; P 2 8].
Example C86_case : winding_number (P 6 5) spiral = Wind 2 /\ winding_number (P 9 5) spiral = Wind 1
  /\ winding_number (P 11 5) spiral = Wind 0 /\ winding_number (P 4 1) spiral = Boundary
  /\ winding_number (P 6 5) (rev spiral) = Wind (-2)
  /\ (forall q, In q spiral -> 0 < -1 * (px q - 11) + 0 * (py q - 5)).
Proof. repeat split; intros; cbn in *; repeat match goal with H : _ \/ _ |- _ => destruct H as [<-|H]; [reflexivity|] end; contradiction. Qed.
Example C86_case_constant : forall a b, poly_edge [P 0 0; P 10 0; P 5 9] a b -> ~ meet (P 4 2) (P 6 2) a b.
Proof.
  intros a b E (n & s & t & N & S & T & X & Y). unfold poly_edge, closed in E. cbn in E.
  repeat (apply (proj1 (path_edge_cons _ _ _ _)) in E as [[<- [r E]]|E]; [injection E as <- _; cbn in X, Y; lia|]).
  apply (proj1 (path_edge_cons _ _ _ _)) in E as [[_ [r E]]|E]; [discriminate | now apply path_edge_nil in E].
Qed.
(** A full turn more for every further round. *)
Example C86_case_chord : winding_number (P 6 5) (P 0 0 :: [P 10 0] ++ [P 10 10]) = Wind 1
  /\ winding_number (P 6 5) [P 0 0; P 10 10; P 0 10] = Wind 0
  /\ winding_number (P 6 5) [P 0 0; P 10 0; P 10 10; P 0 10] = Wind 1.
Proof. repeat split. Qed.

(** ** C87 *)
(** One turn around every point inside. *)
Theorem C87_once : forall poly p n, convex poly -> winding_number p poly = Wind n -> n = 0 \/ n = 1.
Proof.
  intros poly p n C E. destruct (convex_winding poly p C) as (A & B & _ & D). rewrite E in A, B, D.
  destruct (edges_dec poly p) as [K|[K|K]]; [apply A in K | apply B in K | apply D in K]; try congruence;
    injection K as ->; auto.
Qed.
Theorem C87_inside : forall poly p, convex poly ->
  (within_simple p poly = Inside <-> forall a b, poly_edge poly a b -> 0 < turn a b p).
Proof.
  intros poly p C. destruct (convex_winding poly p C) as (A & _). rewrite <- A. pose proof (C87_once poly p) as O. unfold within_simple.
  destruct (winding_number p poly) as [|n]; [split; discriminate|].
  destruct (O n C eq_refl) as [-> | ->]; split; intros H; try discriminate; reflexivity.
Qed.
Theorem C87_outside : forall poly p, convex poly ->
  (within_simple p poly = Outside <-> exists a b, poly_edge poly a b /\ turn a b p < 0).
Proof.
  intros poly p C. destruct (convex_winding poly p C) as (_ & B & _ & _). unfold within_simple. rewrite <- B.
  destruct (winding_number p poly) as [|[|n|n]]; split; intros H; try discriminate; reflexivity.
Qed.
Theorem C87_border : forall poly p, (within_simple p poly = Border <-> exists a b, poly_edge poly a b /\ on_seg p a b).
Proof.
  intros poly p. rewrite <- C86_boundary. unfold within_simple.
  destruct (winding_number p poly) as [|[|n|n]]; split; intros H; try discriminate; reflexivity.
Qed.
Theorem C87_triangle : forall p a b c, turn a b c <> 0 -> within_triangle p [a; b; c] = Ok (within_simple p [a; b; c]).
Proof. apply within_triangle_winding. Qed.
(** Not for a degenerate triangle: a point far from it is said to be inside. *)
Theorem C87_degenerate_refuted : exists p a b c, turn a b c = 0 /\ within_triangle p [a; b; c] = Ok Inside
  /\ within_simple p [a; b; c] = Outside.
Proof. exists (P 5 0), (P 0 0), (P 1 0), (P 2 0). repeat split. Qed.
Definition pentagon := [P 0 0; P 4 (-1); P 6 3; P 3 6; P (-1) 4].
Lemma pentagon_convex : convex pentagon.
Proof.
  split; [cbn; lia|]. intros i j k I K. cbn in K.
  assert (i < 5 /\ j < 5 /\ k < 5)%nat as (A & B & C) by lia.
  do 5 (destruct i as [|i]; [do 5 (destruct j as [|j]; [do 5 (destruct k as [|k]; [try lia; reflexivity|]); lia|]); lia|]). lia.
Qed.
Example C87_case : convex pentagon /\ within_simple (P 2 2) pentagon = Inside /\ within_simple (P 2 7) pentagon = Outside
  /\ within_simple (P 5 4) pentagon = Border /\ turn (P 0 0) (P 4 (-1)) (P 6 3) <> 0
  /\ within_triangle (P 4 1) [P 0 0; P 4 (-1); P 6 3] = Ok Inside.
Proof. split; [apply pentagon_convex|]. repeat split. discriminate. Qed.

(** ** C88 *)
Theorem C88_convex : forall poly p m r, convex poly -> to_monotone poly = (m, r) ->
  within_convex p m (Z.to_nat r) = Ok (within_simple p poly).
Proof. intros poly p m r C E. now apply (located poly p m r). Qed.
Theorem C88_monotone : forall poly p m r, convex poly -> to_monotone poly = (m, r) ->
  within_monotone p m (Z.to_nat r) = Ok (within_simple p poly).
Proof. intros poly p m r C E. now apply (located poly p m r). Qed.
(** Any polygon is only rotated, and begins at its least vertex; the index is that of the greatest one. *)
Theorem C88_rotated : forall poly, poly <> [] ->
  exists l1 l2 r, poly = l1 ++ l2 /\ to_monotone poly = (l2 ++ l1, Z.of_nat r) /\ (r < length poly)%nat
  /\ (forall q, In q poly -> below (hd (P 0 0) (l2 ++ l1)) q) /\ (forall q, In q poly -> below q (nth r (l2 ++ l1) (P 0 0))).
Proof. intros poly H. apply to_monotone_spec. destruct poly; [congruence | cbn; lia]. Qed.
Example C88_case : convex pentagon /\ to_monotone pentagon = ([P (-1) 4; P 0 0; P 4 (-1); P 6 3; P 3 6], 3)
  /\ within_convex (P 2 2) [P (-1) 4; P 0 0; P 4 (-1); P 6 3; P 3 6] 3 = Ok Inside
  /\ within_monotone (P 5 4) [P (-1) 4; P 0 0; P 4 (-1); P 6 3; P 3 6] 3 = Ok Border.
Proof. split; [apply pentagon_convex|]. repeat split. Qed.

(** ** C89 *)
Lemma poly_edge_nth h u v : poly_edge h u v -> exists i, (i < length h)%nat /\ u = nth i h (P 0 0) /\ v = nth ((i + 1) mod length h) h (P 0 0).
Proof.
  intros (l1 & l2 & E). unfold closed in E. destruct h as [|x l]; [destruct l1; discriminate|]. cbn [firstn] in E.
  exists (length l1). assert (L := f_equal (@length pt) E). rewrite !app_length in L. cbn [length] in L.
  assert (U : nth (length l1) ((x :: l) ++ [x]) (P 0 0) = u) by (rewrite E, app_nth2, Nat.sub_diag by lia; reflexivity).
  assert (V : nth (length l1 + 1) ((x :: l) ++ [x]) (P 0 0) = v).
  { rewrite E, app_nth2 by lia. replace (length l1 + 1 - length l1)%nat with 1%nat by lia. reflexivity. }
  set (n := length (x :: l)) in *. assert (n = S (length l)) by reflexivity. split; [lia|].
  rewrite app_nth1 in U by (fold n; lia). split; [now symmetry|].
  destruct (Nat.eq_dec (length l1 + 1) n) as [Q|Q].
  - rewrite Q in *. rewrite Nat.mod_same by lia. rewrite app_nth2 in V by (fold n; lia). fold n in V. rewrite Nat.sub_diag in V. now symmetry.
  - rewrite Nat.mod_small by lia. rewrite app_nth1 in V by (fold n; lia). now symmetry.
Qed.
Theorem C89_convex : forall pts h, (exists p q r, In p pts /\ In q pts /\ In r pts /\ turn p q r <> 0) ->
  convex_hull pts = Ok h -> convex h.
Proof. apply convex_hull_convex. Qed.
(** No point of the set is outside. *)
Theorem C89_contains : forall pts h q, (exists p q r, In p pts /\ In q pts /\ In r pts /\ turn p q r <> 0) ->
  convex_hull pts = Ok h -> In q pts -> within_simple q h <> Outside.
Proof.
  intros pts h q NC E I O. apply (proj1 (C87_outside h q (convex_hull_convex pts h NC E))) in O as (a & b & PE & T).
  destruct (hull_main pts NC) as (h' & E' & _ & _ & _ & _ & C & _). assert (h' = h) by congruence. subst h'.
  apply poly_edge_nth in PE as (i & Hi & -> & ->). specialize (C i q Hi I). lia.
Qed.
(** Vertices of the hull are on its border, so with the theorems above location by binary search
    works on every hull. *)
Theorem C89_located : forall pts h p m r, (exists p q r, In p pts /\ In q pts /\ In r pts /\ turn p q r <> 0) ->
  convex_hull pts = Ok h -> to_monotone h = (m, r) -> within_convex p m (Z.to_nat r) = Ok (within_simple p h).
Proof. intros. apply C88_convex; auto. eapply C89_convex; eauto. Qed.
Example C89_case : let pts := [P 2 2; P 0 0; P 4 (-1); P 6 3; P 3 6; P (-1) 4; P 3 1] in
  (exists p q r, In p pts /\ In q pts /\ In r pts /\ turn p q r <> 0)
  /\ convex_hull pts = Ok [P (-1) 4; P 0 0; P 4 (-1); P 6 3; P 3 6]
  /\ map (fun q => within_simple q [P (-1) 4; P 0 0; P 4 (-1); P 6 3; P 3 6]) pts = [Inside; Border; Border; Border; Border; Border; Inside].
Proof. split; [exists (P 0 0), (P 4 (-1)), (P 6 3); cbn; repeat split; auto 8; discriminate|]. repeat split. Qed.

(** ** C90 *)
Theorem C90_simple : forall poly, convex poly ->
  orientation_simple poly = Ok o_left /\ orientation_simple (rev poly) = Ok o_right.
Proof. apply orientation_simple_convex. Qed.
Theorem C90_convex : forall poly, convex poly -> orientation_convex poly = o_left /\ orientation_convex (rev poly) = o_right.
Proof. apply orientation_convex_convex. Qed.
Example C90_case : convex pentagon /\ orientation_simple pentagon = Ok o_left /\ orientation_convex (rev pentagon) = o_right
  /\ orientation_simple [P 0 0; P 5 5; P 10 0; P 5 20] = Ok o_left.
Proof. split; [apply pentagon_convex|]. repeat split. Qed.

(** ** C91 *)
Theorem C91_sorted : forall pts, Permutation (sort_by_angle pts) pts /\ StronglySorted angle_le (sort_by_angle pts).
Proof. apply sort_by_angle_sorted. Qed.
(** The comparator is a strict weak order on each half, so std::sort may be used. *)
Theorem C91_order : forall p q r, half p = half q -> half q = half r ->
  left_turn p p = false /\ (left_turn p q = true -> left_turn q p = false)
  /\ (left_turn p q = true -> left_turn q r = true -> left_turn p r = true)
  /\ (left_turn p q = false -> left_turn q p = false -> left_turn q r = false -> left_turn r q = false ->
      left_turn p r = false /\ left_turn r p = false).
Proof. apply left_turn_order. Qed.
(** Around another point nothing is lost either, the point itself comes first, then those of the
    upper half plane. *)
Theorem C91_around_permutation : forall pts o, Permutation (sort_by_angle_around pts o) pts
  /\ exists a b c, sort_by_angle_around pts o = a ++ b ++ c /\ (forall q, In q a <-> In q pts /\ q = o)
     /\ (forall q, In q b <-> In q pts /\ (py o < py q \/ (py q = py o /\ px o < px q)))
     /\ (forall q, In q c <-> In q pts /\ (py q < py o \/ (py q = py o /\ px q < px o))).
Proof. apply around_parts. Qed.
(** Around another point the order is not by the angle around that point. *)
Theorem C91_around_refuted : exists pts o, ~ StronglySorted angle_le (map (fun q => P (px q - px o) (py q - py o)) (sort_by_angle_around pts o)).
Proof.
  exists [P 12 11; P 20 16], (P 10 10). intros H. cbn in H. inversion H as [|? ? _ F]; subst. inversion F as [|? ? A _]; subst.
  unfold angle_le in A. cbn in A. lia.
Qed.
Example C91_case : sort_by_angle [P 0 (-1); P (-1) 0; P 1 1; P 0 0; P 1 0; P (-1) 2; P 3 (-1)]
  = [P 0 0; P 1 0; P 1 1; P (-1) 2; P (-1) 0; P 0 (-1); P 3 (-1)]
  /\ half (P 1 1) = half (P (-1) 2) /\ half (P (-1) 2) = half (P 1 0).
Proof. repeat split. Qed.

(** ** C92 *)
(** Two points at different positions, no other two of which are closer. *)
Theorem C92_nearest : forall points, (2 <= length points)%nat ->
  exists p q rest, nearest_pair points = Ok (p, q) /\ Permutation (p :: q :: rest) points
  /\ forall a b l1 l2 l3, points = l1 ++ a :: l2 ++ b :: l3 -> dist2 p q <= dist2 a b.
Proof.
  intros points L. destruct (nearest_pair_spec points L) as (p & q & E & [rest R] & A). exists p, q, rest. split; auto. split; auto.
  intros a b l1 l2 l3. apply (proj1 (all_pairs_two _ _) A).
Qed.
Theorem C92_assert : forall points, (length points < 2)%nat -> nearest_pair points = AssertFail.
Proof. intros points L. destruct points as [|a [|b l]]; cbn in L; try lia; reflexivity. Qed.
Example C92_case : (2 <= length [P 0 0; P 10 3; P 7 9; P (-4) 5; P 8 4; P 20 20; P 3 3; P 1 7])%nat
  /\ nearest_pair [P 0 0; P 10 3; P 7 9; P (-4) 5; P 8 4; P 20 20; P 3 3; P 1 7] = Ok (P 8 4, P 10 3).
Proof. split; [cbn; lia | reflexivity]. Qed.
Example C92_case_equal : nearest_pair [P 5 5; P 0 0; P 5 5] = Ok (P 5 5, P 5 5).
Proof. reflexivity. Qed.

Print Assumptions C86_boundary.
Print Assumptions C86_crossings.
Print Assumptions C86_rotation.
Print Assumptions C86_reversal.
Print Assumptions C86_chord.
Print Assumptions C86_half_plane.
Print Assumptions C86_constant.
Print Assumptions C87_inside.
Print Assumptions C87_outside.
Print Assumptions C87_border.
Print Assumptions C87_once.
Print Assumptions C87_triangle.
Print Assumptions C87_degenerate_refuted.
Print Assumptions C88_convex.
Print Assumptions C88_monotone.
Print Assumptions C88_rotated.
Print Assumptions C89_convex.
Print Assumptions C89_contains.
Print Assumptions C89_located.
Print Assumptions C90_simple.
Print Assumptions C90_convex.
Print Assumptions C91_sorted.
Print Assumptions C91_order.
Print Assumptions C91_around_permutation.
Print Assumptions C91_around_refuted.
Print Assumptions C92_nearest.
Print Assumptions C92_assert.
