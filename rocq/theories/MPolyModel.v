(** Model of point location and sorting by angle over machine integers: as PolyModel.v, with the
    arithmetic of C++ (MGeoModel.v). The point and the vertices have the same integer type [t]. *)
From Coq Require Import ZArith List Bool.
From Verif Require Import Outcome IntTypes GeoModel PolyModel MGeoModel.
Import ListNotations.
Local Open Scope Z_scope.

(** polygon/winding_number.hpp:23: the largest int *)
Definition boundary : Z := 2147483647.
(** Lines 31-54 for one edge; comparisons do not overflow. *)
Definition medge_step (t : ity) (p a b : pt) : outcome (option Z) :=
  if peq p a then Ok None
  else if (py a =? py p) && (py b =? py p) then
    if px a <? px b
    then if negb (px p <? px a) && negb (px b <? px p) then Ok None else Ok (Some 0)
    else if negb (px p <? px b) && negb (px a <? px p) then Ok None else Ok (Some 0)
  else
    let below := py a <? py p in
    if negb (Bool.eqb below (py b <? py p)) then
      do orient <- morient3 t p b a;
      if orient =? o_collinear then Ok None
      else Ok (if Bool.eqb below (orient =? o_right) then Some (if below then 1 else -1) else Some 0)
    else Ok (Some 0).
(** Lines 29-56; the result is an int. *)
Fixpoint mwinding_loop (t : ity) (p : pt) (poly : list pt) (n : nat) (i res : Z) : outcome Z :=
  match n with
  | O => Ok res
  | S n =>
      do s <- medge_step t p (cyc poly i) (cyc poly (i + 1));
      match s with
      | None => Ok boundary
      | Some d => do res <- iarith int32 (res + d); mwinding_loop t p poly n (i + 1) res
      end
  end.
(** Lines 19-57 *)
Definition mwinding_number (t : ity) (p : pt) (poly : list pt) : outcome Z :=
  match poly with
  | [] => Ok 0
  | [a] => Ok (if peq p a then boundary else 0)
  | _ => mwinding_loop t p poly (length poly) 0 0
  end.
(** within/simple_polygon.hpp:15-27 *)
Definition mwithin_simple (t : ity) (p : pt) (poly : list pt) : outcome within :=
  do w <- mwinding_number t p poly;
  Ok (if w =? 0 then Outside else if w =? boundary then Border else Inside).

(** within/triangle.hpp:18-36: the three signs are computed first. *)
Definition mwithin_triangle (t : ity) (p : pt) (poly : list pt) : outcome within :=
  if negb (Z.of_nat (length poly) =? 3) then AssertFail
  else
    do s0 <- morient3 t p (cyc poly 1) (cyc poly 0);
    do s1 <- morient3 t p (cyc poly 2) (cyc poly 1);
    do s2 <- morient3 t p (cyc poly 3) (cyc poly 2);
    let s := fun i => if i =? 0 then s0 else if i =? 1 then s1 else s2 in
    if (s 0 =? s 1) && (s 1 =? s 2) then Ok Inside
    else if existsb (fun i => negb (s i =? o_collinear) && (s i =? - s (if i + 1 =? 3 then 0 else i + 1))) [0; 1; 2]
         then Ok Outside
         else Ok Border.

(** within/convex_monotone_polygon.hpp:39-45, 46-54 *)
Definition mlower_test (t : ity) (p : pt) (poly : list pt) (right : nat) : outcome Z :=
  let lit := (1 + lower_bound pless (firstn (right - 1) (skipn 1 poly)) p)%nat in
  morient3 t p (vertex poly lit) (vertex poly (lit - 1)).
Definition mupper_test (t : ity) (p : pt) (poly : list pt) (right : nat) : outcome Z :=
  let rpoly := rev poly in
  let uit := lower_bound pless (firstn (length poly - right - 1) rpoly) p in
  morient3 t p (match uit with O => vertex poly 0 | S u => vertex rpoly u end) (vertex rpoly uit).
(** Lines 17-56 *)
Definition mwithin_convex (t : ity) (p : pt) (poly : list pt) (right : nat) : outcome within :=
  match poly with
  | [] => Ok Outside
  | [a] => Ok (if peq p a then Border else Outside)
  | v0 :: _ =>
      let vr := vertex poly right in
      if pless p v0 || pless vr p then Ok Outside
      else
        do o <- morient3 t p vr v0;
        if o =? o_collinear then
          Ok (if peq p v0 || peq p vr then Border
              else if Nat.eqb right 1 || Nat.eqb (right + 1) (length poly) then Border else Inside)
        else if o =? o_left then do x <- mlower_test t p poly right; to_inclusion x
        else do x <- mupper_test t p poly right; to_inclusion x
  end.
(** within/monotone_polygon.hpp:17-42 *)
Definition mwithin_monotone (t : ity) (p : pt) (poly : list pt) (right : nat) : outcome within :=
  match poly with
  | [] => Ok Outside
  | [a] => Ok (if peq p a then Border else Outside)
  | v0 :: _ =>
      if pless p v0 || pless (vertex poly right) p then Ok Outside
      else
        do o <- mlower_test t p poly right;
        if o =? o_right then do x <- mupper_test t p poly right; to_inclusion x else to_inclusion o
  end.
(** orientation/simple_polygon.hpp:17-23 *)
Definition morientation_simple (t : ity) (poly : list pt) : outcome Z :=
  match poly with
  | [] => UB
  | v :: l =>
      let i := Z.of_nat (min_index pless l 1 0 v) in
      morient3 t (cyc poly (i - 1)) (cyc poly i) (cyc poly (i + 1))
  end.

(** std::sort with a comparator that may overflow: insertion, as [sort] in GeoModel.v. *)
(* The standard library, used at sort_by_angle.hpp:55-56. *)
Fixpoint minsert (lt : pt -> pt -> outcome bool) (x : pt) (l : list pt) : outcome (list pt) :=
  match l with
  | [] => Ok [x]
  | y :: l' => do b <- lt y x; if b then do r <- minsert lt x l'; Ok (y :: r) else Ok (x :: l)
  end.
Fixpoint msort (lt : pt -> pt -> outcome bool) (l : list pt) : outcome (list pt) :=
  match l with [] => Ok [] | x :: l => do r <- msort lt l; minsert lt x r end.
(** orientation.hpp:40-43 *)
Definition mleft_turn (t : ity) (l r : pt) : outcome bool := do o <- morient t l r; Ok (o =? o_left).
(** point/sort_by_angle.hpp:40-57 *)
Definition msort_by_angle (t : ity) (points : list pt) : outcome (list pt) :=
  let at_origin := fun x => (px x =? 0) && (py x =? 0) in
  let rest := filter (fun x => negb (at_origin x)) points in
  let upper := y_compare (P 0 0) in
  do a <- msort (mleft_turn t) (filter upper rest);
  do b <- msort (mleft_turn t) (filter (fun x => negb (upper x)) rest);
  Ok (filter at_origin points ++ a ++ b).
