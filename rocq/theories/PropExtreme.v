(** Convex polygons: antipodal vertices and the largest distance, the extreme vertex in a
    direction, tangents from a point, the chord of a line: C93 to C96. *)
From Coq Require Import ZArith QArith List Bool Lia.
From Verif Require Import Outcome GeoModel HullProofs GeoProofs PolyModel PolyProofs WindProofs ConvexProofs AngleProofs PropPoly ExtremeModel ExtremeProofs ChordModel ChordProofs.
Import ListNotations.
Local Open Scope Z_scope.

(** ** C93 *)
(** Every pair of vertices with parallel supporting lines that touch nothing else is among the
    pairs; there are fewer than twice as many as vertices. *)
Theorem C93_antipodal : forall poly, convex poly -> exists r, antipodal_vertices poly = Ok r
  /\ (forall x y, In (x, y) r -> (x < y < length poly)%nat)
  /\ (length r < 2 * length poly)%nat
  /\ (forall a b w, (a < b < length poly)%nat ->
        (forall v, In v poly -> v <> vertex poly a -> 0 < px w * (py v - py (vertex poly a)) - py w * (px v - px (vertex poly a))) ->
        (forall v, In v poly -> v <> vertex poly b -> px w * (py v - py (vertex poly b)) - py w * (px v - px (vertex poly b)) < 0) ->
        In (a, b) r).
Proof.
  intros poly C. destruct (antipodal_spec poly C) as (r & E & R1 & R2 & R3). exists r. repeat split; auto; try (apply (R1 x y); assumption).
  intros a b w AB A1 A2. apply (R3 a b w AB). split; intros v I NE; [specialize (A1 v I NE) | specialize (A2 v I NE)]; unfold area; lia.
Qed.
(** The largest distance between two vertices, squared. *)
Theorem C93_max_distance : forall poly, convex poly -> exists D, max_distance poly = Ok D
  /\ (exists v w, In v poly /\ In w poly /\ D = (px v - px w) * (px v - px w) + (py v - py w) * (py v - py w))
  /\ (forall v w, In v poly -> In w poly -> (px v - px w) * (px v - px w) + (py v - py w) * (py v - py w) <= D).
Proof. exact max_distance_spec. Qed.
(** With two vertices the loops leave the polygon before they end. *)
Theorem C93_two_vertices_refuted : exists poly, length poly = 2%nat /\ NoDup poly /\ max_distance poly = UB.
Proof.
  exists [P 0 0; P 1 0]. split; [reflexivity|]. split; [|reflexivity].
  constructor; [intros [E|[]]; discriminate|]. constructor; [intros []|constructor].
Qed.
Example C93_case : antipodal_vertices pentagon = Ok [(0, 1); (0, 2); (0, 3); (1, 3); (1, 4); (2, 4)]%nat /\ max_distance pentagon = Ok 50.
Proof. split; reflexivity. Qed.
(** Vertices 1 and 3 with horizontal lines. *)
Example C93_case_lines : convex pentagon
  /\ (forall v, In v pentagon -> v <> vertex pentagon 1 -> 0 < 1 * (py v - py (vertex pentagon 1)) - 0 * (px v - px (vertex pentagon 1)))
  /\ (forall v, In v pentagon -> v <> vertex pentagon 3 -> 1 * (py v - py (vertex pentagon 3)) - 0 * (px v - px (vertex pentagon 3)) < 0).
Proof.
  split; [apply pentagon_convex|]. split; intros v I NE; cbn in I;
    repeat (destruct I as [<-|I]; [first [reflexivity | exfalso; now apply NE]|]); contradiction.
Qed.

(** ** C94 *)
(** The vertex farthest to the right of the direction, the first one of two; the values of
    [cross d v] measure the distance to the left of a line along [d]. *)
Theorem C94_extreme : forall d poly, convex poly -> d <> P 0 0 ->
  exists m, extreme_vertex (fun _ => d) poly = Ok m /\ (m < length poly)%nat
    /\ (forall w, In w poly -> 0 <= px d * (py w - py (vertex poly m)) - py d * (px w - px (vertex poly m)))
    /\ (let w := vertex poly ((m + length poly - 1) mod length poly) in
        0 < px d * (py w - py (vertex poly m)) - py d * (px w - px (vertex poly m))).
Proof.
  intros d poly C ND. destruct (extreme_direction d poly C ND) as (m & E & B & L1 & L2). exists m. repeat split; auto.
  - intros w I. specialize (L1 w I). unfold area in L1. lia.
  - cbv zeta. replace (vertex poly ((m + length poly - 1) mod length poly)) with (cyc poly (Z.of_nat m - 1)).
    + unfold area in L2. lia.
    + rewrite vertex_V by (apply Nat.mod_upper_bound; lia). apply V_eq; auto.
      rewrite Nat2Z.inj_mod, Z.mod_mod by lia. replace (Z.of_nat (m + length poly - 1)) with (Z.of_nat m - 1 + 1 * Z.of_nat (length poly)) by lia.
      now rewrite Z.mod_add by lia.
Qed.
Example C94_case : extreme_vertex (fun _ => P 1 0) pentagon = Ok 1%nat /\ extreme_vertex (fun _ => P 0 1) pentagon = Ok 2%nat
  /\ extreme_vertex (fun _ => P 4 (-1)) pentagon = Ok 0%nat /\ extreme_vertex (fun _ => P (-1) (-3)) pentagon = Ok 4%nat.
Proof. repeat split. Qed.

(** ** C95 *)
Theorem C95_tangents : forall p poly, convex poly -> within_simple p poly = Outside ->
  exists l r, polygon_tangents p poly = Ok (l, r) /\ (l < length poly)%nat /\ (r < length poly)%nat
    /\ (forall w, In w poly -> 0 <= turn p (vertex poly l) w) /\ (forall w, In w poly -> turn p (vertex poly r) w <= 0).
Proof. intros p poly C O. apply tangents_spec; auto. now apply C87_outside. Qed.
Example C95_case : convex pentagon /\ within_simple (P 10 0) pentagon = Outside /\ polygon_tangents (P 10 0) pentagon = Ok (3, 1)%nat
  /\ polygon_tangents (P (-4) 1) pentagon = Ok (0, 4)%nat.
Proof. split; [apply pentagon_convex|]. repeat split. Qed.

(** ** C96 *)
(** The point with parameter [t] is [begin + t * vector]; it is in the closed polygon if it is not
    to the right of an edge.  [on_line] says whether the parameter is between the ends of the
    line: a ray begins with 0, a segment ends with 1, ends may be excluded. *)
Theorem C96_chord : forall kb ke l poly, convex poly -> lvec l <> P 0 0 ->
  let inside := fun t => forall a b, poly_edge poly a b ->
    (0 <= inject_Z (turn a b (lbegin l)) + t * inject_Z ((px b - px a) * py (lvec l) - (py b - py a) * px (lvec l)))%Q in
  (exists t1 t2, intersect_polygon kb ke l poly = Ok (filter (on_line kb ke) [t1; t2]) /\ (t1 <= t2)%Q
     /\ forall t, inside t <-> (t1 <= t /\ t <= t2)%Q)
  \/ (intersect_polygon kb ke l poly = Ok [] /\ forall t, ~ inside t).
Proof. intros kb ke l poly C ND. exact (intersect_polygon_spec l poly C ND kb ke). Qed.
Theorem C96_kinds : forall kb ke t, on_line kb ke t = true <->
  match kb with Free => True | Closed => (0 <= t)%Q | Open => (0 < t)%Q end /\
  match ke with Free => True | Closed => (t <= 1)%Q | Open => (t < 1)%Q end.
Proof.
  assert (N : forall x y, negb (Qle_bool x y) = true <-> (y < x)%Q).
  { intros x y. rewrite negb_true_iff, <- not_true_iff_false, Qle_bool_iff. split; [apply Qnot_le_lt | apply Qlt_not_le]. }
  intros kb ke t. unfold on_line, begin_ok, end_ok. rewrite andb_true_iff. destruct kb, ke; rewrite ?N, ?Qle_bool_iff; intuition.
Qed.
(** A single common point is reported twice. *)
Theorem C96_single_refuted : exists l poly t1 t2, convex poly /\ intersect_polygon Free Free l poly = Ok [t1; t2] /\ (t1 == t2)%Q.
Proof. exists (make_line (P 0 6) (P 1 6)), pentagon. do 2 eexists. split; [apply pentagon_convex|]. split; reflexivity. Qed.
Example C96_case : intersect_polygon Free Free (make_line (P 0 2) (P 1 2)) pentagon = Ok [(-2 # 4)%Q; (22 # 4)%Q]
  /\ intersect_polygon Closed Free (make_line (P 0 2) (P 1 2)) pentagon = Ok [(22 # 4)%Q]
  /\ intersect_polygon Free Free (make_line (P 0 7) (P 1 7)) pentagon = Ok []
  /\ intersect_polygon Free Free (make_line (P 4 (-1)) (P 0 0)) pentagon = Ok [(0 # 18)%Q; (15 # 15)%Q]
  /\ intersect_polygon Free Free (make_line (P 4 4) (P 4 4)) pentagon = AssertFail.
Proof. repeat split. Qed.

Print Assumptions C93_antipodal.
Print Assumptions C93_max_distance.
Print Assumptions C93_two_vertices_refuted.
Print Assumptions C94_extreme.
Print Assumptions C95_tangents.
Print Assumptions C96_chord.
Print Assumptions C96_kinds.
Print Assumptions C96_single_refuted.
