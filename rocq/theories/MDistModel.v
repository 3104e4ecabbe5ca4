(** Model of the closest pair and the largest distance over machine integers: as PolyModel.v and
    ExtremeModel.v, with the integer arithmetic of C++ (MGeoModel.v) and distances of type double.

    A double that is not negative and is the rounded square root of an integer below 2^106 is a
    multiple of 2^-52, and is represented by this multiple, a number in units of 2^-52. *)
From Coq Require Import ZArith List Bool.
From Verif Require Import Outcome IntTypes GeoModel PolyModel ExtremeModel MGeoModel.
Import ListNotations.
Local Open Scope Z_scope.

(** Conversion of an integer that is not negative to double, to nearest and ties to even. *)
(* The language: conversion for std::sqrt in the distances of polygon/max_distance.hpp:19-23 and
   nearest/multi_point.hpp:31, IEEE 754. *)
Definition dround (n : Z) : Z :=
  let e := Z.log2 n - 52 in
  if e <=? 0 then n
  else
    let q := n / 2 ^ e in
    let r := 2 * (n mod 2 ^ e) in
    (if (r <? 2 ^ e) || ((r =? 2 ^ e) && Z.even q) then q else q + 1) * 2 ^ e.
(** std::sqrt of a double that is an integer, correctly rounded, in units of 2^-52: the root has its
    leading bit at [h] and is rounded to 53 bits; it is never in the middle of two numbers. *)
Definition dsqrt (n : Z) : Z :=
  let h := Z.log2 n / 2 in
  let N := n * 4 ^ (52 - h) in
  let s := Z.sqrt N in
  (if N <=? s * s + s then s else s + 1) * 2 ^ h.
(** An integer as a double, in units of 2^-52 *)
Definition dint (x : Z) : Z := (if x <? 0 then - dround (- x) else dround x) * 2 ^ 52.

(** distance/point_point.hpp:14-19, point/norm.hpp:14-17, square_root.hpp:17-20, point.hpp:210-227 *)
Definition mdistance (t : ity) (p q : pt) : outcome Z :=
  do v <- mpsub t p q; do d <- mdot (promote t) v v; Ok (dsqrt (dround d)).

(** ** nearest/multi_point.hpp *)
(* nearest/multi_point.hpp:31-33 *)
Definition mcloser : Type := Z * (pt * pt).
(** Lines 29-35 after the first pair *)
Fixpoint mbrute_loop (t : ity) (pairs : list (pt * pt)) (res : mcloser) : outcome mcloser :=
  match pairs with
  | [] => Ok res
  | pq :: l =>
      do dist <- mdistance t (fst pq) (snd pq);
      mbrute_loop t l (if dist <? fst res then (dist, pq) else res)
  end.
(** Lines 28-35 *)
Definition mbrute (t : ity) (points : list pt) : outcome mcloser :=
  match index_pairs points with
  | [] => Ok (0, (P 0 0, P 0 0))
  | pq :: l => do dist <- mdistance t (fst pq) (snd pq); mbrute_loop t l (dist, pq)
  end.
(** Lines 50-56; [tmp] with the last element first. *)
Fixpoint mstrip_inner (t : ity) (p : pt) (tmp : list pt) (res : mcloser) : outcome mcloser :=
  match tmp with
  | [] => Ok res
  | q :: tmp =>
      do dy <- msub t (py p) (py q);
      if negb (dint dy <? fst res) then Ok res
      else
        do dist <- mdistance t p q;
        mstrip_inner t p tmp (if dist <? fst res then (dist, (p, q)) else res)
  end.
(** Lines 47-59 with numeric/comparison/abs.hpp:26-32 *)
Fixpoint mstrip_loop (t : ity) (mx : Z) (points tmp : list pt) (res : mcloser) : outcome mcloser :=
  match points with
  | [] => Ok res
  | p :: points =>
      do dx <- msub t (px p) mx;
      do ax <- iarith (promote t) (Z.abs dx);
      if dint ax <? fst res
      then do res <- mstrip_inner t p tmp res; mstrip_loop t mx points (p :: tmp) res
      else mstrip_loop t mx points tmp res
  end.
(** Lines 19-61 *)
Fixpoint mnearest_rec (fuel : nat) (t : ity) (points : list pt) : outcome (mcloser * list pt) :=
  let n := length points in
  if (n <=? 3)%nat then do res <- mbrute t points; Ok (res, sort y_comp points)
  else
    match fuel with
    | O => NoFuel
    | S fuel =>
        let middle := (n / 2)%nat in
        let mx := px (nth middle points (P 0 0)) in
        do (lres, lpoints) <- mnearest_rec fuel t (firstn middle points);
        do (rres, rpoints) <- mnearest_rec fuel t (skipn middle points);
        let res := if fst rres <? fst lres then rres else lres in
        let points := merge_by y_comp lpoints rpoints in
        do res <- mstrip_loop t mx points [] res;
        Ok (res, points)
    end.
(** Lines 66-78 *)
Definition mnearest_pair (t : ity) (points : list pt) : outcome (pt * pt) :=
  if negb (1 <? Z.of_nat (length points)) then AssertFail
  else
    let points := sort pless points in
    match adjacent_equal points with
    | Some pq => Ok pq
    | None => do (res, _) <- mnearest_rec (length points) t points; Ok (snd res)
    end.

(** ** polygon/antipodal_vertices.hpp:22-31 *)
Fixpoint mantipodal_loop (fuel : nat) (t : ity) (poly : list pt) (i j : nat) : outcome (list (nat * nat)) :=
  if Nat.eqb j (length poly) then Ok []
  else
    match fuel with
    | O => NoFuel
    | S fuel =>
        do vecj <- mpsub t (vertex poly (if Nat.eqb (j + 1) (length poly) then 0%nat else (j + 1)%nat)) (vertex poly j);
        if (length poly <=? i + 1)%nat then UB
        else
          do veci <- mpsub t (vertex poly (i + 1)) (vertex poly i);
          do o <- morient (promote t) veci vecj;
          do rest <- (if o =? o_left then mantipodal_loop fuel t poly i (j + 1) else mantipodal_loop fuel t poly (i + 1) j);
          Ok ((i, j) :: rest)
    end.
Definition mantipodal_vertices (t : ity) (poly : list pt) : outcome (list (nat * nat)) :=
  match poly with [] => UB | _ => mantipodal_loop (2 * length poly) t poly 0 1 end.
(** polygon/max_distance.hpp:18-25 *)
Fixpoint mmax_loop (t : ity) (poly : list pt) (pairs : list (nat * nat)) (res : Z) : outcome Z :=
  match pairs with
  | [] => Ok res
  | (i, j) :: pairs => do dist <- mdistance t (vertex poly i) (vertex poly j); mmax_loop t poly pairs (Z.max res dist)
  end.
Definition mmax_distance (t : ity) (poly : list pt) : outcome Z :=
  do pairs <- mantipodal_vertices t poly; mmax_loop t poly pairs 0.
