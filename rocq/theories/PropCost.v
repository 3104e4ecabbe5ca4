(** C137: documented running times of geometric algorithms. *)
From Coq Require Import ZArith QArith List Bool Lia.
From Verif Require Import Outcome GeoModel HullProofs PolyModel PolyProofs WindProofs ExtremeModel ExtremeProofs ChordModel ChordProofs NearestProofs CostModel CostProofs.
From Verif Require Import PropPoly.
Import ListNotations.
Local Open Scope Z_scope.

(** The functions [..._c] give the result and the number of predicates, distances and comparisons evaluated for it;
    every statement has the same result without counting next to the bound. [Nat.log2_up n] is the least k with
    n <= 2^k; [convex poly]: every vertex is strictly to the left of every edge. *)

(** polygon/extreme_vertex.hpp:16, O(log N): comparisons of vertices, for every list of points and every direction. *)
Theorem C137_extreme : forall direction poly,
  (forall r, extreme_vertex direction poly = Ok r <-> exists c, extreme_vertex_c direction poly = Ok (r, c)) /\
  (forall r c, extreme_vertex_c direction poly = Ok (r, c) -> (c <= 3 * Nat.log2_up (length poly) + 2)%nat).
Proof.
  intros direction poly. destruct (extreme_cost direction poly) as [E B]. split; [|exact B].
  intros r. rewrite <- E. destruct (extreme_vertex_c direction poly) as [[r' c]| | | |]; cbn; split; try discriminate; try (intros [c' X]; discriminate).
  - intros X. injection X as ->. eauto.
  - intros [c' X]. injection X as -> _. reflexivity.
Qed.
Print Assumptions C137_extreme.
(** tangents/point_convex_polygon.hpp: two searches. *)
Theorem C137_tangents : forall p poly,
  (forall r, polygon_tangents p poly = Ok r <-> exists c, polygon_tangents_c p poly = Ok (r, c)) /\
  (forall r c, polygon_tangents_c p poly = Ok (r, c) -> (c <= 6 * Nat.log2_up (length poly) + 4)%nat).
Proof.
  intros p poly. destruct (tangents_cost p poly) as [E B]. split; [|exact B].
  intros r. rewrite <- E. destruct (polygon_tangents_c p poly) as [[r' c]| | | |]; cbn; split; try discriminate; try (intros [c' X]; discriminate).
  - intros X. injection X as ->. eauto.
  - intros [c' X]. injection X as -> _. reflexivity.
Qed.
Print Assumptions C137_tangents.
(** intersect/line_convex_polygon.hpp:16, O(log N): comparisons, orientations and intersections with edges. *)
Theorem C137_chord : forall kb ke l poly, convex poly -> lvec l <> P 0 0 ->
  (forall r, intersect_polygon kb ke l poly = Ok r <-> exists c, intersect_polygon_c kb ke l poly = Ok (r, c)) /\
  (forall r c, intersect_polygon_c kb ke l poly = Ok (r, c) -> (c <= 8 * Nat.log2_up (length poly) + 8)%nat).
Proof.
  intros kb ke l poly C N. destruct (chord_cost l poly kb ke C N) as [E B]. split; [|exact B].
  intros r. rewrite <- E. destruct (intersect_polygon_c kb ke l poly) as [[r' c]| | | |]; cbn; split; try discriminate; try (intros [c' X]; discriminate).
  - intros X. injection X as ->. eauto.
  - intros [c' X]. injection X as -> _. reflexivity.
Qed.
Print Assumptions C137_chord.
(** convex_hull/andrew_monotone_chain.hpp:23, O(N log N): besides the two sorts at most three orientations for every point. *)
Theorem C137_hull : forall points,
  (forall r, convex_hull points = Ok r <-> exists c, convex_hull_c points = Ok (r, c)) /\
  (forall r c, convex_hull_c points = Ok (r, c) -> (c <= 3 * length points)%nat).
Proof.
  intros points. destruct (hull_cost points) as [E B]. split; [|exact B].
  intros r. rewrite <- E. destruct (convex_hull_c points) as [[r' c]| | | |]; cbn; split; try discriminate; try (intros [c' X]; discriminate).
  - intros X. injection X as ->. eauto.
  - intros [c' X]. injection X as -> _. reflexivity.
Qed.
Print Assumptions C137_hull.
(** nearest/multi_point.hpp:65, O(N log N): distances and comparisons besides the sort. *)
Theorem C137_nearest : forall points, (2 <= length points)%nat ->
  exists r c, nearest_pair points = Ok r /\ nearest_pair_c points = Ok (r, c) /\
  (c <= length points + 19 * length points * Nat.log2_up (length points))%nat.
Proof.
  intros points L. destruct (nearest_cost points) as [E B]. destruct (nearest_pair_spec points L) as (p & q & EN & _).
  rewrite EN in *. destruct (nearest_pair_c points) as [[r c]| | | |]; try discriminate. injection E as ->.
  exists (p, q), c. split; [reflexivity|]. split; [reflexivity|]. now apply (B (p, q)).
Qed.
Print Assumptions C137_nearest.
(** What makes it so: in the strip around the middle at most eight points lie less than the distance below a point,
    for two sets of points which are at least that distance apart on both sides of the middle. *)
Theorem C137_strip : forall mx d y l r,
  (forall l1 p l2 q l3, l = l1 ++ p :: l2 ++ q :: l3 -> d <= dist2 p q) ->
  (forall l1 p l2 q l3, r = l1 ++ p :: l2 ++ q :: l3 -> d <= dist2 p q) ->
  (forall q, In q l -> px q <= mx) -> (forall q, In q r -> mx <= px q) ->
  forall box, NoDup box -> (forall q, In q box -> In q (l ++ r) /\
    (px q - mx) * (px q - mx) < d /\ py q <= y /\ (y - py q) * (y - py q) < d) ->
  (length box <= 8)%nat.
Proof.
  intros mx d y l r HL HR XL XR box ND HB.
  assert (AL : all_pairs (fun a b => d <= dist2 a b) l) by (apply all_pairs_two; intros p q l1 l2 l3 E; eapply HL; exact E).
  assert (AR : all_pairs (fun a b => d <= dist2 a b) r) by (apply all_pairs_two; intros p q l1 l2 l3 E; eapply HR; exact E).
  pose proof (packing mx d l y AL (or_introl XL)) as PL. pose proof (packing mx d r y AR (or_intror XR)) as PR.
  assert (I : incl box (filter (near mx d y) (l ++ r))).
  { intros q Q. destruct (HB q Q) as (Q1 & Q2 & Q3 & Q4). apply filter_In. split; [exact Q1|]. apply near_spec. auto. }
  apply (NoDup_incl_length ND) in I. rewrite filter_app, app_length in I. lia.
Qed.
Print Assumptions C137_strip.

(** ** Cases *)
(** Vertices of a parabola, closed by an edge. *)
Definition parabola (n : nat) : list pt := map (fun i => let x := Z.of_nat i in P x (x * x)) (seq 0 n).
Example C137_case_search :
  extreme_vertex_c (fun _ => P 1 100) (parabola 1000) = Ok (50%nat, 17%nat) /\
  extreme_vertex_c (fun _ => P 1 601) (parabola 1000) = Ok (300%nat, 17%nat) /\ Nat.log2_up 1000 = 10%nat /\
  polygon_tangents_c (P 300 (-5)) (parabola 1000) = Ok (600%nat, 0%nat, 23%nat).
Proof. vm_compute. auto. Qed.
Example C137_case_chord : convex pentagon /\ lvec (make_line (P 0 2) (P 1 2)) <> P 0 0 /\
  intersect_polygon_c Free Free (make_line (P 0 2) (P 1 2)) pentagon = Ok ([(-2 # 4)%Q; (22 # 4)%Q], 17%nat).
Proof. split; [apply pentagon_convex|]. split; [discriminate|]. vm_compute. reflexivity. Qed.
Example C137_case_missed :
  intersect_polygon_c Free Free (make_line (P 0 100) (P 1 100)) pentagon = Ok ([], 12%nat).
Proof. vm_compute. reflexivity. Qed.
Example C137_case_hull : convex_hull_c [P 0 0; P 4 0; P 2 1; P 2 2; P 4 4; P 0 4; P 1 3] = Ok ([P 0 0; P 4 0; P 4 4; P 0 4], 15%nat).
Proof. vm_compute. reflexivity. Qed.
Example C137_case_nearest : nearest_pair_c (parabola 64) = Ok (P 0 0, P 1 1, 942%nat) /\ Nat.log2_up 64 = 6%nat.
Proof. vm_compute. auto. Qed.
(** Two points on each side. *)
Example C137_case_strip : let l := [P (-9) 0; P 0 5] in let r := [P 0 9; P 9 4] in
  100 <= dist2 (P (-9) 0) (P 0 5) /\ 100 <= dist2 (P 0 9) (P 9 4) /\ filter (near 0 100 9) (l ++ r) = (l ++ r)%list.
Proof. cbn zeta. split; [vm_compute; discriminate|]. split; [vm_compute; discriminate|]. vm_compute. reflexivity. Qed.
