(** Model of planar predicates over machine integers: geometry/point.hpp,
    geometry/line.hpp, geometry/algorithm/{area,orientation,convex_hull}, with every
    coordinate a value of the integer type [t] and every operation done in C++ arithmetic:
    operands narrower than int are promoted, unsigned results wrap, signed overflow is
    undefined, and a conversion to a narrower type keeps the low bits.

    [product] is [fold(mul)] (sequence/fold/scalar.hpp:17), so a plain [*]; the policies
    default_policy and geometry_policy (geometry/traits.hpp, cast_before<Div, double>)
    change no operation used here.  Both operands have the same type; [res += x] has the
    promoted type on both sides. *)
From Coq Require Import ZArith List Bool.
From Verif Require Import Outcome IntTypes GeoModel.
Import ListNotations.
Local Open Scope Z_scope.

(** Plus, minus and times of two scalars of type [t]. *)
(* The language, in geometry/point.hpp:139-160 and area/point_point.hpp:21-22. *)
Definition madd (t : ity) (a b : Z) : outcome Z := iarith (promote t) (a + b).
Definition msub (t : ity) (a b : Z) : outcome Z := iarith (promote t) (a - b).
Definition mmul (t : ity) (a b : Z) : outcome Z := iarith (promote t) (a * b).

(** point.hpp:152-160: the result has the promoted coordinate type. *)
Definition mpadd (t : ity) (l r : pt) : outcome pt :=
  do x <- madd t (px l) (px r); do y <- madd t (py l) (py r); Ok (P x y).
Definition mpsub (t : ity) (l r : pt) : outcome pt :=
  do x <- msub t (px l) (px r); do y <- msub t (py l) (py r); Ok (P x y).
(** point.hpp:38-42: conversion of coordinates, static_cast<T>. *)
Definition mconv (t : ity) (p : pt) : pt := P (IntTypes.wrap t (px p)) (IntTypes.wrap t (py p)).

(** point.hpp:210-218 for N = 2: starts with 0 and adds the products in order. *)
Definition mdot (t : ity) (l r : pt) : outcome Z :=
  do a <- mmul t (px l) (px r); do r0 <- madd t 0 a;
  do b <- mmul t (py l) (py r); madd t r0 b.

(** area/point_point.hpp:21-22 *)
Definition marea (t : ity) (p0 p1 : pt) : outcome Z :=
  do a <- mmul t (px p0) (py p1); do b <- mmul t (py p0) (px p1); msub t a b.

(** orientation/point_point.hpp:14-19; sgn is compare3way with 0
    (numeric/comparison/sgn.hpp:26, compare3way.hpp:22). *)
Definition morient (t : ity) (l r : pt) : outcome Z := do a <- marea t r l; Ok (Z.sgn a).
(** orientation/point_point.hpp:21-29 *)
Definition morient3 (t : ity) (l r origin : pt) : outcome Z :=
  do a <- mpsub t l origin; do b <- mpsub t r origin; morient (promote t) a b.

(** line.hpp:109-113, 184-189: the vector is computed in the promoted type and stored in
    the type of the line; line.hpp:145-147: so is the end. *)
Definition mmake_line (t : ity) (a b : pt) : outcome line :=
  do v <- mpsub t b a; Ok (L a (mconv t v)).
Definition mlend (t : ity) (l : line) : outcome pt :=
  do e <- mpadd t (lbegin l) (lvec l); Ok (mconv t e).
(** orientation/point_line.hpp:14-19: a point of the promoted type against a vector of
    type [t], which is promoted when it is used. *)
Definition morient_pl (t : ity) (p : pt) (l : line) : outcome Z :=
  do a <- mpsub t p (lbegin l); morient (promote t) a (lvec l).

(** area/simple_polygon.hpp:21-29; [x] has type [t] and the difference the promoted type. *)
Fixpoint marea_loop (t : ity) (poly : list pt) (n : nat) (i res : Z) : outcome Z :=
  match n with
  | O => Ok res
  | S n =>
      do d <- msub t (py (cyc poly (i + 1))) (py (cyc poly (i - 1)));
      do m <- mmul t (px (cyc poly i)) d;
      do r <- madd t res m;
      marea_loop t poly n (i + 1) r
  end.
Definition mpolygon_area (t : ity) (poly : list pt) : outcome Z := marea_loop t poly (length poly) 0 0.

(** std::partition with a predicate that may overflow: the points for which it holds and
    the others (each group is sorted afterwards). *)
(* The standard library, used at andrew_monotone_chain.hpp:37. *)
Fixpoint mpartition (f : pt -> outcome bool) (l : list pt) : outcome (list pt * list pt) :=
  match l with
  | [] => Ok ([], [])
  | p :: l =>
      do b <- f p; do (yes, no) <- mpartition f l;
      Ok (if b then (p :: yes, no) else (yes, p :: no))
  end.
(** convex_hull/andrew_monotone_chain.hpp:41-45 *)
Fixpoint mpop (t : ity) (p : pt) (st : list pt) : outcome (list pt) :=
  match st with
  | top :: (o :: _) as rest =>
      do r <- morient3 t p top o;
      if r =? o_right then Ok st else mpop t p rest
  | _ => Ok st
  end.
(** Lines 46-52 *)
Fixpoint mpush_all (t : ity) (st : list pt) (l : list pt) : outcome (list pt) :=
  match l with
  | [] => Ok st
  | p :: l => do st' <- mpop t p st; mpush_all t (p :: st') l
  end.
(** Lines 29-57 *)
Definition mconvex_hull (t : ity) (points : list pt) : outcome (list pt) :=
  match points with
  | [] | [_] => Ok points
  | p :: ps =>
      do l <- mmake_line t (min_point p ps) (max_point p ps);
      do (lo, up) <- mpartition (fun q => do r <- morient_pl t q l; Ok (negb (r =? o_right))) points;
      match sort pless lo with
      | p0 :: p1 :: rest =>
          do st0 <- mpush_all t [p1; p0] (rest ++ sort pgreater up);
          do st <- mpop t p0 st0;
          Ok (rev (match st with
                   | [a; b] => if peq b a then [b] else st
                   | _ => st
                   end))
      | _ => AssertFail
      end
  end.
