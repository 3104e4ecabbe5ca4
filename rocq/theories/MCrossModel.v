(** Model of the intersection of lines in the plane over machine integers: as CrossModel.v, with the
    arithmetic of C++ (MGeoModel.v). Both lines have the same integer type [t]. The point of
    intersection is computed with a ratio of floating point (geometry/traits.hpp, cast_before<Div,
    double>), which is left out: the model says whether there is output and, for scalars, which ratio. *)
From Coq Require Import ZArith List Bool.
From Verif Require Import Outcome IntTypes GeoModel MGeoModel.
From Verif Require VecModel CrossModel.
Import ListNotations.
Local Open Scope Z_scope.

(** line.hpp:98-107 with its kind *)
Record kline := K { k_line : line; k_begin : VecModel.endpoint; k_end : VecModel.endpoint }.
(** line.hpp:115-124, 206-213 *)
Definition mmake_kline (t : ity) (a b : pt) (ka kb : VecModel.endpoint) : outcome kline :=
  do l <- mmake_line t a b; Ok (K l ka kb).

(** detail/line_test.hpp:27-33 *)
Definition mline_test (l : kline) (num den : Z) : bool :=
  CrossModel.endpoint_test Z.ltb (k_begin l) 0 num && CrossModel.endpoint_test Z.ltb (k_end l) num den.
(** intersect/line_line_2d.hpp:27-43; the areas have the promoted type. *)
Definition mcross_test (t : ity) (l r : kline) (tarea larea rarea : Z) : outcome bool :=
  if tarea <? 0 then
    do ta <- msub t 0 tarea; do la <- msub t 0 larea; do ra <- msub t 0 rarea;
    Ok (mline_test l la ta && mline_test r ra ta)
  else Ok (mline_test l larea tarea && mline_test r rarea tarea).

(** intersect/line_line_2d.hpp:47-65: numerator and denominator of the ratio *)
Definition mintersect_scalar (t : ity) (lhs rhs : kline) : outcome (option (Z * Z)) :=
  do tarea <- marea t (lvec (k_line rhs)) (lvec (k_line lhs));
  if tarea =? 0 then Ok None
  else
    do v <- mpsub t (lbegin (k_line lhs)) (lbegin (k_line rhs));
    do larea <- marea (promote t) v (lvec (k_line rhs));
    do rarea <- marea (promote t) v (lvec (k_line lhs));
    do c <- mcross_test t lhs rhs tarea larea rarea;
    Ok (if c then Some (larea, tarea) else None).

(** detail/common_line.hpp:15-38 *)
Definition mmax_endpoint (lhs rhs : pt * VecModel.endpoint) (start : bool) : pt * VecModel.endpoint :=
  if VecModel.is_free (snd lhs) then
    if negb (VecModel.is_free (snd rhs)) then rhs
    else if Bool.eqb (pless (fst lhs) (fst rhs)) start then lhs else rhs
  else if VecModel.is_free (snd rhs) then lhs
  else if peq (fst lhs) (fst rhs)
       then if Nat.leb (VecModel.ep_val (snd rhs)) (VecModel.ep_val (snd lhs)) then lhs else rhs
       else if Bool.eqb (pless (fst rhs) (fst lhs)) start then lhs else rhs.
(** Lines 54-58; only the end that is taken is computed. *)
Definition mget_point (t : ity) (l : kline) (start : bool) : outcome (pt * VecModel.endpoint) :=
  if Bool.eqb (pless (P 0 0) (lvec (k_line l))) start then Ok (lbegin (k_line l), k_begin l)
  else do e <- mlend t (k_line l); Ok (e, k_end l).
(** Lines 47-67 with line.hpp:215-226: whether there is a common line; its vector is computed. *)
Definition mcommon_line (t : ity) (l r : kline) : outcome bool :=
  do l1 <- mget_point t l true; do r1 <- mget_point t r true;
  do l0 <- mget_point t l false; do r0 <- mget_point t r false;
  let la := mmax_endpoint l1 r1 true in
  let lb := mmax_endpoint l0 r0 false in
  if CrossModel.endpoint_test pless (snd la) (fst la) (fst lb) then
    do _ <- (if Nat.ltb (VecModel.ep_val (snd la)) (VecModel.ep_val (snd lb))
             then mpsub t (fst la) (fst lb) else mpsub t (fst lb) (fst la));
    Ok true
  else Ok false.

(** intersect/line_line_2d.hpp:82-104 with crosses/line_line_2d.hpp:37-44 *)
Definition mcrosses (t : ity) (lhs rhs : kline) : outcome bool :=
  do tarea <- marea t (lvec (k_line rhs)) (lvec (k_line lhs));
  do v <- mpsub t (lbegin (k_line lhs)) (lbegin (k_line rhs));
  do larea <- marea (promote t) v (lvec (k_line rhs));
  if tarea =? 0 then if negb (larea =? 0) then Ok false else mcommon_line t lhs rhs
  else
    do rarea <- marea (promote t) v (lvec (k_line lhs));
    mcross_test t lhs rhs tarea larea rarea.
