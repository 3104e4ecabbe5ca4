(** Model of algorithms on convex polygons over floating point numbers: as ExtremeModel.v and
    ChordModel.v, with the arithmetic of FGeoModel.v. Points have the same format [f]. *)
From Coq Require Import ZArith QArith List Bool.
From Verif Require Import Outcome FGeoModel FPolyModel FCrossModel FLineModel.
From Verif Require GeoModel VecModel ChordModel.
Import ListNotations.
Local Open Scope Z_scope.

(** ** polygon/antipodal_vertices.hpp:22-31 *)
(** orientation.hpp:40-43 *)
Definition fleft_turn (f : format) (l r : fpt) : bool := forient f l r =? GeoModel.o_left.
(** As in ExtremeModel.v; reading past the last vertex in line 26 is undefined. *)
Fixpoint fantipodal_loop (fuel : nat) (f : format) (poly : list fpt) (i j : nat) : outcome (list (nat * nat)) :=
  if Nat.eqb j (length poly) then Ok []
  else
    match fuel with
    | O => NoFuel
    | S fuel =>
        let vecj := fpsub f (fvertex poly (if Nat.eqb (j + 1) (length poly) then 0%nat else (j + 1)%nat)) (fvertex poly j) in
        if (length poly <=? i + 1)%nat then UB
        else
          do rest <- (if fleft_turn f (fpsub f (fvertex poly (i + 1)) (fvertex poly i)) vecj
                      then fantipodal_loop fuel f poly i (j + 1) else fantipodal_loop fuel f poly (i + 1) j);
          Ok ((i, j) :: rest)
    end.
Definition fantipodal_vertices (f : format) (poly : list fpt) : outcome (list (nat * nat)) :=
  match poly with [] => UB | _ => fantipodal_loop (2 * length poly) f poly 0 1 end.

(** ** polygon/extreme_vertex.hpp:19-53 *)
(** Lines 23-25 *)
Definition fvertex_cmp (f : format) (direction : fpt -> fpt) (vi vj : fpt) : Z := forient f (direction vj) (fpsub f vj vi).
(** Lines 26-34 *)
Definition fis_extreme (f : format) (direction : fpt -> fpt) (poly : list fpt) (i : nat) : bool * Z :=
  let at_ := fun k => fcyc poly (Z.of_nat i + k) in
  let v := fvertex_cmp f direction (at_ 1) (at_ 0) in
  (negb (v =? GeoModel.o_left) && (fvertex_cmp f direction (at_ 0) (at_ (-1)) =? GeoModel.o_left), v).
(** Lines 39-52 *)
Fixpoint fextreme_loop (fuel : nat) (f : format) (direction : fpt -> fpt) (poly : list fpt) (first : nat) (first_sgn : Z) (last : nat) : outcome nat :=
  if Nat.eqb (first + 1) last then Ok first
  else
    match fuel with
    | O => NoFuel
    | S fuel =>
        let middle := (first + (last - first) / 2)%nat in
        let (middle_ok, middle_sgn) := fis_extreme f direction poly middle in
        if middle_ok then Ok middle
        else if (if negb (first_sgn =? middle_sgn) then first_sgn <? middle_sgn
                 else first_sgn =? fvertex_cmp f direction (fvertex poly first) (fvertex poly middle))
        then fextreme_loop fuel f direction poly first first_sgn middle
        else fextreme_loop fuel f direction poly middle middle_sgn last
    end.
(** The cyclic iterators of line 27 assert that the polygon has more than one vertex
    (cyclic_iterator.hpp:28, 51). *)
Definition fextreme_vertex (f : format) (direction : fpt -> fpt) (poly : list fpt) : outcome nat :=
  if (length poly <=? 1)%nat then AssertFail
  else
    let (first_ok, first_sgn) := fis_extreme f direction poly 0 in
    if first_ok then Ok 0%nat else fextreme_loop (length poly) f direction poly 0 first_sgn (length poly).

(** ** tangents/point_convex_polygon.hpp:17-29 *)
Definition fpolygon_tangents (f : format) (p : fpt) (poly : list fpt) : outcome (nat * nat) :=
  do l <- fextreme_vertex f (fun x => fpsub f x p) poly;
  do r <- fextreme_vertex f (fun x => fpsub f p x) poly;
  Ok (l, r).

(** ** intersect/line_convex_polygon.hpp; as in ChordModel.v, line 20 is taken as declaring [P]. *)
(** point.hpp:147-150 *)
Definition fpneg (p : fpt) : fpt := FP (neg_num (fx p)) (neg_num (fy p)).
(** Lines 47-54; the number of steps is a parameter. *)
Fixpoint fchain_loop (fuel : nat) (f : format) (l : fline) (poly : list fpt) (first last : nat) (first_orient : Z) : outcome (nat * nat) :=
  let n := length poly in
  if Nat.eqb (ChordModel.cyclic_plus n first 1) last then Ok (first, last)
  else
    match fuel with
    | O => NoFuel
    | S fuel =>
        let middle := ChordModel.cyclic_plus n first (ChordModel.cyclic_minus n last first / 2) in
        if forient_pl f (fvertex poly middle) l =? first_orient then fchain_loop fuel f l poly middle last first_orient
        else fchain_loop fuel f l poly first middle first_orient
    end.
(** Lines 45-58 *)
Definition fintersect_chain (fuel : nat) (f : format) (l : fkline) (poly : list fpt) (first last : nat) (first_orient : Z) : outcome (list num) :=
  do (first, last) <- fchain_loop fuel f (fk_line l) poly first last first_orient;
  Ok (fintersect_scalar f l (fmake_kline f (fvertex poly first) (fvertex poly last) VecModel.Free VecModel.Free)).
(** Lines 19-61 *)
Definition fintersect_polygon (fuel : nat) (f : format) (l : fkline) (poly : list fpt) : outcome (list num) :=
  assert_then (negb (fpeq (flvec (fk_line l)) fzero))
    (do rightmost <- fextreme_vertex f (fun _ => flvec (fk_line l)) poly;
     do leftmost <- fextreme_vertex f (fun _ => fpneg (flvec (fk_line l))) poly;
     let right_orient := forient_pl f (fvertex poly rightmost) (fk_line l) in
     let left_orient := forient_pl f (fvertex poly leftmost) (fk_line l) in
     if (left_orient =? GeoModel.o_left) || (right_orient =? GeoModel.o_right) then Ok []
     else
       do o1 <- fintersect_chain fuel f l poly leftmost rightmost left_orient;
       do o2 <- fintersect_chain fuel f l poly rightmost leftmost right_orient;
       Ok (o1 ++ o2)).
