(** Model of geometry/algorithm/tangents/point_circle.hpp, point/bisector.hpp, point/norm.hpp and
    point/angle.hpp.

    Exact rational arithmetic as in VecModel.v; [root] stands for square_root.  Angles are not
    rational: the angle [atan2(y, x)] is represented by the vector (x, y), of which it is the
    polar angle, and the sum of two angles by the product of the vectors as complex numbers. *)
From Coq Require Import QArith Qcanon List Bool.
From Verif Require Import Outcome VecModel CrossModel.
Import ListNotations.
Local Open Scope Qc_scope.

(** point/norm.hpp:14-17 *)
Definition norm (root : Qc -> Qc) (p : vec) : Qc := root (dot p p).
(** point/bisector.hpp:13-19 *)
Definition bisector (root : Qc -> Qc) (l r : vec) : vec := vadd (vscale (norm root r) l) (vscale (norm root l) r).

(** An output iterator: the points written after it and by how many positions the iterator
    returned is ahead of it. *)
(* tangents/point_circle.hpp:17-39 *)
Record output := Out { written : list vec; advance : nat }.
(** tangents/point_circle.hpp:17-39: the iterator returned by [intersect] in line 31 is dropped. *)
Definition tangents (root : Qc -> Qc) (p : vec) (c : sphere) : outcome output :=
  match within_sphere (norm root (vsub p (center c))) c with
  | Outside =>
      let n := norm root (vsub (center c) p) in
      let dist := root (n * n - radius c * radius c) in
      do pts <- intersect_circles root (Sp p dist) c;
      Ok (Out pts 0)
  | Border => Ok (Out [p] 1)
  | Inside => Ok (Out [] 0)
  end.

(** Angles as vectors: point/angle.hpp:14-33. *)
Definition angle (p : vec) : vec := p.
Definition angle2 (l r : vec) : vec := [dot l r; area2 l r].
Definition angle_add (a b : vec) : vec :=
  match a, b with [x; y], [u; v] => [x * u - y * v; x * v + y * u] | _, _ => [] end.
Definition angle_neg (a : vec) : vec := match a with [x; y] => [x; - y] | _ => [] end.
(** tangents/point_circle.hpp:41-64 *)
Definition tangents_polar (root : Qc -> Qc) (p : vec) (c : sphere) : list vec :=
  let cv := vsub (center c) p in
  match within_sphere (norm root (vsub p (center c))) c with
  | Outside =>
      let center_angle := angle cv in
      let offset := [norm root cv; radius c] in
      [angle_add center_angle (angle_neg offset); angle_add center_angle offset]
  | Border => [angle (perpendicular cv)]
  | Inside => []
  end.
