(** Model of algorithms on convex polygons over machine integers: as ExtremeModel.v and ChordModel.v,
    with the arithmetic of C++ (MGeoModel.v). All coordinates have the same integer type [t]; the
    quotients of [ratio], computed in floating point, are left as numerator and denominator. *)
From Coq Require Import ZArith List Bool.
From Verif Require Import Outcome IntTypes GeoModel PolyModel ExtremeModel ChordModel MGeoModel.
Import ListNotations.
Local Open Scope Z_scope.

(** ** polygon/extreme_vertex.hpp:19-53; directions have the promoted type. *)
(** Lines 23-25 *)
Definition mvertex_cmp (t : ity) (direction : pt -> outcome pt) (vi vj : pt) : outcome Z :=
  do d <- direction vj; do v <- mpsub t vj vi; morient (promote t) d v.
(** Lines 26-34: the second comparison is made only if the first one asks for it. *)
Definition mis_extreme (t : ity) (direction : pt -> outcome pt) (poly : list pt) (i : nat) : outcome (bool * Z) :=
  let at_ := fun k => cyc poly (Z.of_nat i + k) in
  do v <- mvertex_cmp t direction (at_ 1) (at_ 0);
  if negb (v =? o_left) then do w <- mvertex_cmp t direction (at_ 0) (at_ (-1)); Ok (w =? o_left, v)
  else Ok (false, v).
(** Lines 39-52 *)
Fixpoint mextreme_loop (fuel : nat) (t : ity) (direction : pt -> outcome pt) (poly : list pt) (first : nat) (first_sgn : Z) (last : nat) : outcome nat :=
  if Nat.eqb (first + 1) last then Ok first
  else
    match fuel with
    | O => NoFuel
    | S fuel =>
        let middle := (first + (last - first) / 2)%nat in
        do (middle_ok, middle_sgn) <- mis_extreme t direction poly middle;
        if middle_ok then Ok middle
        else
          do less <- (if negb (first_sgn =? middle_sgn) then Ok (first_sgn <? middle_sgn)
                      else do c <- mvertex_cmp t direction (vertex poly first) (vertex poly middle); Ok (first_sgn =? c));
          if less then mextreme_loop fuel t direction poly first first_sgn middle
          else mextreme_loop fuel t direction poly middle middle_sgn last
    end.
Definition mextreme_vertex (t : ity) (direction : pt -> outcome pt) (poly : list pt) : outcome nat :=
  if (length poly <=? 1)%nat then AssertFail
  else
    do (first_ok, first_sgn) <- mis_extreme t direction poly 0;
    if first_ok then Ok 0%nat else mextreme_loop (length poly) t direction poly 0 first_sgn (length poly).

(** ** tangents/point_convex_polygon.hpp:17-29 *)
Definition mpolygon_tangents (t : ity) (p : pt) (poly : list pt) : outcome (nat * nat) :=
  do l <- mextreme_vertex t (fun x => mpsub t x p) poly;
  do r <- mextreme_vertex t (fun x => mpsub t p x) poly;
  Ok (l, r).

(** ** intersect/line_convex_polygon.hpp *)
(** point.hpp:147-150: std::negate of the coordinate type converts back. *)
Definition mneg (t : ity) (p : pt) : outcome pt :=
  do x <- iarith (promote t) (- px p); do y <- iarith (promote t) (- py p); Ok (mconv t (P x y)).
(** intersect/line_line_2d.hpp:27-65 for a line of the kind [kb], [ke] and one without ends: numerator and
    denominator. The second area of cross_test is computed and not used. *)
Definition mcross_scalar (t : ity) (kb ke : endpoint) (l edge : line) : outcome (list (Z * Z)) :=
  do tarea <- marea t (lvec edge) (lvec l);
  if tarea =? 0 then Ok []
  else
    do v <- mpsub t (lbegin l) (lbegin edge);
    do larea <- marea (promote t) v (lvec edge);
    do rarea <- marea (promote t) v (lvec l);
    do c <- (if tarea <? 0 then
               do ta <- msub t 0 tarea; do la <- msub t 0 larea; do ra <- msub t 0 rarea; Ok (line_test kb ke la ta)
             else Ok (line_test kb ke larea tarea));
    Ok (if c then [(larea, tarea)] else []).
(** Lines 47-54 *)
Fixpoint mchain_loop (fuel : nat) (t : ity) (l : line) (poly : list pt) (first last : nat) (first_orient : Z) : outcome (nat * nat) :=
  let n := length poly in
  if Nat.eqb (cyclic_plus n first 1) last then Ok (first, last)
  else
    match fuel with
    | O => NoFuel
    | S fuel =>
        let middle := cyclic_plus n first (cyclic_minus n last first / 2) in
        do o <- morient_pl t (vertex poly middle) l;
        if o =? first_orient then mchain_loop fuel t l poly middle last first_orient
        else mchain_loop fuel t l poly first middle first_orient
    end.
(** Lines 45-58 *)
Definition mintersect_chain (t : ity) (kb ke : endpoint) (l : line) (poly : list pt) (first last : nat) (first_orient : Z) : outcome (list (Z * Z)) :=
  do (first, last) <- mchain_loop (length poly) t l poly first last first_orient;
  do edge <- mmake_line t (vertex poly first) (vertex poly last);
  mcross_scalar t kb ke l edge.
(** Lines 19-61 *)
Definition mintersect_polygon (t : ity) (kb ke : endpoint) (l : line) (poly : list pt) : outcome (list (Z * Z)) :=
  assert_then (negb (peq (lvec l) (P 0 0)))
    (do rightmost <- mextreme_vertex t (fun _ => Ok (lvec l)) poly;
     do leftmost <- mextreme_vertex t (fun _ => mneg t (lvec l)) poly;
     do right_orient <- morient_pl t (vertex poly rightmost) l;
     do left_orient <- morient_pl t (vertex poly leftmost) l;
     if (left_orient =? o_left) || (right_orient =? o_right) then Ok []
     else
       do o1 <- mintersect_chain t kb ke l poly leftmost rightmost left_orient;
       do o2 <- mintersect_chain t kb ke l poly rightmost leftmost right_orient;
       Ok (o1 ++ o2)).
