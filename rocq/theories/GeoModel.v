(** Model of planar predicates: geometry/point.hpp, geometry/line.hpp,
    geometry/algorithm/{area,orientation,convex_hull}.

    Coordinates are integers and the arithmetic is exact: rounding and tolerance
    policies are not modelled, overflow of the scalar type is in MGeoModel.v.  Scaling by a common
    denominator covers rational coordinates. *)
From Coq Require Import ZArith List Bool.
From Verif Require Import Outcome.
Import ListNotations.
Local Open Scope Z_scope.

(** point.hpp:87-91, 290-294 *)
Record pt := P { px : Z; py : Z }.
(** point.hpp:152-160 *)
Definition padd (l r : pt) : pt := P (px l + px r) (py l + py r).
Definition psub (l r : pt) : pt := P (px l - px r) (py l - py r).
(** point.hpp:162-180: is_equal and less of the coordinate ranges. *)
Definition peq (l r : pt) : bool := (px l =? px r) && (py l =? py r).
Definition pless (l r : pt) : bool := (px l <? px r) || ((px l =? px r) && (py l <? py r)).
(** point.hpp:210-218 *)
Definition dot (l r : pt) : Z := px l * px r + py l * py r.

(** area/point_point.hpp:21-22 *)
Definition area (p0 p1 : pt) : Z := px p0 * py p1 - py p0 * px p1.

(** orientation.hpp:13-17 *)
Definition o_left : Z := -1.
Definition o_collinear : Z := 0.
Definition o_right : Z := 1.
(** orientation/point_point.hpp:14-19 *)
Definition orient (l r : pt) : Z := Z.sgn (area r l).
(** orientation/point_point.hpp:21-29 *)
Definition orient3 (l r origin : pt) : Z := orient (psub l origin) (psub r origin).

(** line.hpp:98-146, without the kind. *)
Record line := L { lbegin : pt; lvec : pt }.
Definition make_line (a b : pt) : line := L a (psub b a).
Definition lend (l : line) : pt := padd (lbegin l) (lvec l).
(** area/point_line.hpp:14-19, orientation/point_line.hpp:14-19 *)
Definition area_pl (p : pt) (l : line) : Z := area (psub p (lbegin l)) (lvec l).
Definition orient_pl (p : pt) (l : line) : Z := orient (psub p (lbegin l)) (lvec l).

(** ** Polygon area: area/simple_polygon.hpp:21-29 *)
(** Element of the polygon at a cyclic position (range/iterator/cyclic_iterator.hpp). *)
(* geometry/algorithm/area/simple_polygon.hpp:21-29 for the two definitions after it *)
Definition cyc (poly : list pt) (i : Z) : pt := nth (Z.to_nat (i mod Z.of_nat (length poly))) poly (P 0 0).
Fixpoint area_loop (poly : list pt) (n : nat) (i res : Z) : Z :=
  match n with
  | O => res
  | S n => area_loop poly n (i + 1) (res + px (cyc poly i) * (py (cyc poly (i + 1)) - py (cyc poly (i - 1))))
  end.
Definition polygon_area (poly : list pt) : Z := area_loop poly (length poly) 0 0.

(** ** Convex hull: convex_hull/andrew_monotone_chain.hpp:29-57 *)
(** minmax_element *)
(* The standard library, used at convex_hull/andrew_monotone_chain.hpp:33. *)
Fixpoint min_point (p : pt) (l : list pt) : pt :=
  match l with [] => p | q :: l => min_point (if pless q p then q else p) l end.
Fixpoint max_point (p : pt) (l : list pt) : pt :=
  match l with [] => p | q :: l => max_point (if pless q p then p else q) l end.

(** sort: equivalent points are equal, so any sorting algorithm gives the same list. *)
(* The standard library, used at andrew_monotone_chain.hpp:39, 49; [pgreater] is greater_functor of
   line 49. *)
Fixpoint insert (lt : pt -> pt -> bool) (x : pt) (l : list pt) : list pt :=
  match l with [] => [x] | y :: l' => if lt y x then y :: insert lt x l' else x :: l end.
Definition sort (lt : pt -> pt -> bool) (l : list pt) : list pt := fold_right (insert lt) [] l.
Definition pgreater (l r : pt) : bool := pless r l.

(** Lines 41-45; the stack points[last], ..., points[0] of hull points. *)
Fixpoint pop (p : pt) (st : list pt) : list pt :=
  match st with
  | t :: (o :: _) as rest => if orient3 p t o =? o_right then st else pop p rest
  | _ => st
  end.
(** Lines 50-51 *)
Definition push (st : list pt) (p : pt) : list pt := p :: pop p st.

(** Lines 29-57.  Hull points are written over the points processed before, so the
    rest of the range is intact when it is sorted in line 49. *)
Definition convex_hull (points : list pt) : outcome (list pt) :=
  match points with
  | [] | [_] => Ok points
  | p :: ps =>
      let l := make_line (min_point p ps) (max_point p ps) in
      let comp := fun q => negb (orient_pl q l =? o_right) in
      let lower := sort pless (filter comp points) in
      let upper := sort pgreater (filter (fun q => negb (comp q)) points) in
      match lower with
      | p0 :: p1 :: rest =>
          let st := pop p0 (fold_left push (rest ++ upper) [p1; p0]) in
          Ok (rev (match st with
                   | [a; b] => if peq b a then [b] else st
                   | _ => st
                   end))
      | _ => AssertFail
      end
  end.
