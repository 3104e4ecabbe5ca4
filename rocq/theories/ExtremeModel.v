(** Model of algorithms on convex polygons:
    geometry/algorithm/polygon/{antipodal_vertices,extreme_vertex,max_distance}.hpp,
    geometry/algorithm/tangents/point_convex_polygon.hpp.

    Integer coordinates and exact arithmetic as in GeoModel.v; iterators are positions, [end] is
    the number of vertices. *)
From Coq Require Import ZArith List Bool.
From Verif Require Import Outcome GeoModel PolyModel.
Import ListNotations.
Local Open Scope Z_scope.

(** ** polygon/antipodal_vertices.hpp:22-31 *)
(** One step of the loops; the inner loop ends at the end of the polygon and so does the outer
    one.  Reading past the last vertex in line 26 is undefined. *)
Fixpoint antipodal_loop (fuel : nat) (poly : list pt) (i j : nat) : outcome (list (nat * nat)) :=
  if Nat.eqb j (length poly) then Ok []
  else
    match fuel with
    | O => NoFuel
    | S fuel =>
        let vecj := psub (vertex poly (if Nat.eqb (j + 1) (length poly) then 0%nat else (j + 1)%nat)) (vertex poly j) in
        if (length poly <=? i + 1)%nat then UB
        else
          do rest <- (if left_turn (psub (vertex poly (i + 1)) (vertex poly i)) vecj
                      then antipodal_loop fuel poly i (j + 1) else antipodal_loop fuel poly (i + 1) j);
          Ok ((i, j) :: rest)
    end.
(** Line 22: advancing the begin of an empty polygon is undefined. *)
Definition antipodal_vertices (poly : list pt) : outcome (list (nat * nat)) :=
  match poly with [] => UB | _ => antipodal_loop (2 * length poly) poly 0 1 end.
(** polygon/max_distance.hpp:18-25; the square of the distance. *)
Definition max_distance (poly : list pt) : outcome Z :=
  do pairs <- antipodal_vertices poly;
  Ok (fold_left (fun res ij => Z.max res (dist2 (vertex poly (fst ij)) (vertex poly (snd ij)))) pairs 0).

(** ** polygon/extreme_vertex.hpp:19-53 *)
(** Lines 23-25 *)
Definition vertex_cmp (direction : pt -> pt) (vi vj : pt) : Z := orient (direction vj) (psub vj vi).
(** Lines 26-34 *)
Definition is_extreme (direction : pt -> pt) (poly : list pt) (i : nat) : bool * Z :=
  let at_ := fun k => cyc poly (Z.of_nat i + k) in
  let v := vertex_cmp direction (at_ 1) (at_ 0) in
  (negb (v =? o_left) && (vertex_cmp direction (at_ 0) (at_ (-1)) =? o_left), v).
(** Lines 39-52 *)
Fixpoint extreme_loop (fuel : nat) (direction : pt -> pt) (poly : list pt) (first : nat) (first_sgn : Z) (last : nat) : outcome nat :=
  if Nat.eqb (first + 1) last then Ok first
  else
    match fuel with
    | O => NoFuel
    | S fuel =>
        let middle := (first + (last - first) / 2)%nat in
        let (middle_ok, middle_sgn) := is_extreme direction poly middle in
        if middle_ok then Ok middle
        else if (if negb (first_sgn =? middle_sgn) then first_sgn <? middle_sgn
                 else first_sgn =? vertex_cmp direction (vertex poly first) (vertex poly middle))
        then extreme_loop fuel direction poly first first_sgn middle
        else extreme_loop fuel direction poly middle middle_sgn last
    end.
(** The cyclic iterators of line 27 assert that the polygon has more than one vertex
    (cyclic_iterator.hpp:28, 51). *)
Definition extreme_vertex (direction : pt -> pt) (poly : list pt) : outcome nat :=
  if (length poly <=? 1)%nat then AssertFail
  else
    let (first_ok, first_sgn) := is_extreme direction poly 0 in
    if first_ok then Ok 0%nat else extreme_loop (length poly) direction poly 0 first_sgn (length poly).

(** ** tangents/point_convex_polygon.hpp:17-29 *)
Definition polygon_tangents (p : pt) (poly : list pt) : outcome (nat * nat) :=
  do l <- extreme_vertex (fun x => psub x p) poly;
  do r <- extreme_vertex (fun x => psub p x) poly;
  Ok (l, r).
