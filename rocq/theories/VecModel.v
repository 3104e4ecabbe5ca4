(** Model of N-dimensional vector geometry over the rational numbers:
    geometry/{point,line,plane,sphere}.hpp, geometry/algorithm/{project,reflect,nearest,
    distance,rotate}, geometry/algorithm/point/invert.hpp,
    geometry/algorithm/orientation/point_point.hpp (N dimensions).

    A point of dimension N is a list of N canonical rationals: scalars are exact, rounding,
    overflow and tolerance policies are not modelled. *)
From Coq Require Import QArith Qcanon List Bool.
From Verif Require Import Outcome.
Import ListNotations.
Local Open Scope Qc_scope.

(* geometry/point.hpp:24-120: the coordinates. *)
Definition vec := list Qc.

(** geometry/point.hpp:115-121, 147-160, 182-198: the coordinatewise operations. *)
Fixpoint zip (f : Qc -> Qc -> Qc) (l r : vec) : vec :=
  match l, r with x :: l, y :: r => f x y :: zip f l r | _, _ => [] end.
Definition vadd : vec -> vec -> vec := zip Qcplus.
Definition vsub : vec -> vec -> vec := zip Qcminus.
Definition vscale (k : Qc) (v : vec) : vec := map (Qcmult k) v.
(** geometry/point.hpp:210-218 *)
Fixpoint dot_from (res : Qc) (l r : vec) : Qc :=
  match l, r with x :: l, y :: r => dot_from (res + x * y) l r | _, _ => res end.
Definition dot (l r : vec) : Qc := dot_from 0 l r.
(** geometry/point.hpp:235-242 *)
Definition is0 (x : Qc) : bool := if Qc_eq_dec x 0 then true else false.
Definition degenerate (p : vec) : bool := forallb is0 p.

Definition qlt (x y : Qc) : bool := if Qclt_le_dec x y then true else false.

(** ** Lines: geometry/line.hpp *)
(** line.hpp:14 and 38-45 *)
Inductive endpoint := Free | Closed | Open.
Definition is_free (e : endpoint) : bool := match e with Free => true | _ => false end.
Record line := L { lbegin : vec; lvec : vec; kbegin : endpoint; kend : endpoint }.
(** line.hpp:32-35 *)
Definition ep_val (e : endpoint) : nat := match e with Free => 0 | Closed => 1 | Open => 2 end.
Definition valid_kind (l : line) : bool := Nat.leb (ep_val (kend l)) (ep_val (kbegin l)).
(** line.hpp:145-152 *)
Definition lend (l : line) : vec := vadd (lbegin l) (lvec l).
Definition at_ (l : line) (t : Qc) : vec := vadd (lbegin l) (vscale t (lvec l)).

(** ** Planes: geometry/plane.hpp:18-19, 40-45 *)
Record plane := Pl { normal : vec; pd : Qc }.
Definition plane_value (pl : plane) (p : vec) : Qc := dot (normal pl) p - pd pl.

(** ** Projections *)
(** project/point_line.hpp:14-29 *)
Definition project_scalar (p : vec) (l : line) : Qc := dot (vsub p (lbegin l)) (lvec l) / dot (lvec l) (lvec l).
Definition project_line (p : vec) (l : line) : vec := at_ l (project_scalar p l).
(** project/point_plane.hpp:14-20 *)
Definition project_plane (p : vec) (pl : plane) : vec :=
  vsub p (vscale (plane_value pl p / dot (normal pl) (normal pl)) (normal pl)).
(** project/point_point.hpp:14-19 *)
Definition project_point (p onto : vec) : vec := onto.

(** reflect/point.hpp:13-16 *)
Definition reflect_line (p : vec) (l : line) : vec := vsub (vscale (1 + 1) (project_line p l)) p.
Definition reflect_plane (p : vec) (pl : plane) : vec := vsub (vscale (1 + 1) (project_plane p pl)) p.
Definition reflect_point (p across : vec) : vec := vsub (vscale (1 + 1) (project_point p across)) p.

(** nearest/point_line.hpp:14-27: the second element of the pair. *)
Definition nearest_line (p : vec) (l : line) : vec :=
  if negb (is_free (kbegin l)) && negb (qlt 0 (dot (vsub p (lbegin l)) (lvec l))) then lbegin l
  else if negb (is_free (kend l)) && negb (qlt (dot (vsub p (lend l)) (lvec l)) 0) then lend l
  else project_line p l.

(** point/invert.hpp:14-28 *)
Definition invert (p : vec) (radius : Qc) : outcome vec :=
  if degenerate p then AssertFail
  else Ok (vscale (radius * radius / dot p p) p).
Definition invert_sphere (p center : vec) (radius : Qc) : outcome vec :=
  do q <- invert (vsub p center) radius; Ok (vadd center q).

(** rotate/point2d.hpp:14-21; [s] and [c] are the sine and the cosine of the angle. *)
Definition rotate (p : vec) (s c : Qc) : vec := [dot [c; s] p; dot [s; c] p].
(** rotate/point2d.hpp:23-31 *)
Definition rotate_about (p : vec) (s c : Qc) (origin : vec) : vec := vadd origin (rotate (vsub p origin) s c).

(** orientation/point_point.hpp:14-19: area of two vectors of dimension 2 is not zero. *)
Definition collinear2 (a b c d : Qc) : bool := is0 (c * b - d * a).
(** orientation/point_point.hpp:31-45 in dimension N; true for collinear. *)
Fixpoint coll_rest (li ri : Qc) (l r : vec) : bool :=
  match l, r with
  | lj :: l, rj :: r => collinear2 li lj ri rj && coll_rest li ri l r
  | _, _ => true
  end.
Fixpoint collinear_n (l r : vec) : bool :=
  match l, r with
  | li :: l, ri :: r =>
      if is0 li then if is0 ri then collinear_n l r else false
      else coll_rest li ri l r
  | _, _ => true
  end.

(** geometry/point.hpp:307-311 and 323-332 *)
Definition perpendicular (p : vec) : vec := match p with [x; y] => [- y; x] | _ => [] end.
Definition cross3 (l r : vec) : vec :=
  match l, r with
  | [l0; l1; l2], [r0; r1; r2] => [l1 * r2 - l2 * r1; l2 * r0 - l0 * r2; l0 * r1 - l1 * r0]
  | _, _ => []
  end.
(** geometry/plane.hpp:27-29, 70-80 *)
Definition make_plane (n p : vec) : plane := Pl n (dot n p).
Definition make_plane2d (a b : vec) : plane := make_plane (perpendicular (vsub b a)) a.
Definition make_plane3d (a b c : vec) : plane := make_plane (cross3 (vsub b a) (vsub c a)) a.

(** crosses/plane_plane.hpp:15-28 *)
Fixpoint first_nonzero (l r : vec) : option (Qc * Qc) :=
  match l, r with
  | x :: l, y :: r => if is0 x then first_nonzero l r else Some (x, y)
  | _, _ => None
  end.
Definition crosses_planes (l r : plane) : outcome bool :=
  if degenerate (normal l) || degenerate (normal r) then AssertFail
  else if negb (collinear_n (normal l) (normal r)) then Ok true
  else match first_nonzero (normal l) (normal r) with
       | Some (x, y) => Ok (collinear2 x (pd l) y (pd r))
       | None => UB
       end.

(** ** Distances *)
(** The square of the distance: the square roots of norm.hpp:14-17 are not rational. *)
(** area/point_line.hpp:14-19, area/point_point.hpp:15-22 *)
Definition area2 (p q : vec) : Qc := match p, q with [a; b], [c; d] => a * d - b * c | _, _ => 0 end.
(** distance/point_line.hpp:14-25, squared, in dimension 2. *)
Definition distance2_line (p : vec) (l : line) : Qc :=
  if negb (is_free (kbegin l)) && qlt (dot (vsub p (lbegin l)) (lvec l)) 0
  then dot (vsub p (lbegin l)) (vsub p (lbegin l))
  else if negb (is_free (kend l)) && qlt 0 (dot (vsub p (lend l)) (lvec l))
  then dot (vsub p (lend l)) (vsub p (lend l))
  else area2 (vsub p (lbegin l)) (lvec l) * area2 (vsub p (lbegin l)) (lvec l) / dot (lvec l) (lvec l).
(** distance/point_plane.hpp:15-21, squared. *)
Definition distance2_plane (p : vec) (pl : plane) : outcome Qc :=
  if degenerate (normal pl) then AssertFail
  else Ok (plane_value pl p * plane_value pl p / dot (normal pl) (normal pl)).
(** crosses/plane_sphere.hpp:16-24; both sides squared, as the radius is not negative. *)
Definition crosses_plane_sphere (pl : plane) (center : vec) (radius : Qc) : bool :=
  negb (qlt (plane_value pl center * plane_value pl center)
            (radius * radius * dot (normal pl) (normal pl))).
