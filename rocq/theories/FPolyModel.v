(** Model of hull, area, point location and sorting by angle over floating point numbers: as
    GeoModel.v and PolyModel.v, with the arithmetic of FGeoModel.v. Points and vertices have the
    same format [f]; comparisons with NaN are false. *)
From Coq Require Import ZArith QArith List Bool.
From Verif Require Import Outcome FGeoModel.
From Verif Require GeoModel PolyModel.
Import ListNotations.
Local Open Scope Z_scope.

(** The operators < and == of the language. *)
(* Used at numeric/comparison/compare3way.hpp:22 and range/operation/is_equal. *)
Definition nless (a b : num) : bool :=
  match a, b with
  | Fin x, Fin y => match Qcompare x y with Lt => true | _ => false end
  | Inf n, Inf m => n && negb m
  | Inf n, Fin _ => n
  | Fin _, Inf m => negb m
  | NaN, _ | _, NaN => false
  end.
Definition neq (a b : num) : bool :=
  match a, b with
  | Fin x, Fin y => match Qcompare x y with Eq => true | _ => false end
  | Inf n, Inf m => Bool.eqb n m
  | _, _ => false
  end.
(** numeric/comparison/compare3way.hpp:22: (l > r) - (l < r) *)
Definition ncompare (a b : num) : Z := (if nless b a then 1 else 0) - (if nless a b then 1 else 0).

(** point.hpp:162-180, lexicographical_compare_range.hpp:21-34 *)
Definition fpeq (l r : fpt) : bool := neq (fx l) (fx r) && neq (fy l) (fy r).
Definition fpless (l r : fpt) : bool :=
  let v := ncompare (fx l) (fx r) in
  if v =? 0 then ncompare (fy l) (fy r) <? 0 else v <? 0.
(** point.hpp:299-305 *)
Definition fy_compare (l r : fpt) : bool :=
  let v := ncompare (fy l) (fy r) in (v <? 0) || ((v =? 0) && nless (fx l) (fx r)).
(** point.hpp:74: a default constructed point, here the result of [nth] out of range, which does not occur. *)
Definition fzero : fpt := FP (Fin 0) (Fin 0).

(** line.hpp:98-146, without the kind; the vector is the rounded difference. *)
Record fline := FL { flbegin : fpt; flvec : fpt }.
Definition fmake_line (f : format) (a b : fpt) : fline := FL a (fpsub f b a).
(** orientation/point_line.hpp:14-19 *)
Definition forient_pl (f : format) (p : fpt) (l : fline) : Z := forient f (fpsub f p (flbegin l)) (flvec l).

(** ** Polygon area: area/simple_polygon.hpp:21-29 *)
(* range/iterator/cyclic_iterator.hpp, area/simple_polygon.hpp:23-27 *)
Definition fcyc (poly : list fpt) (i : Z) : fpt := nth (Z.to_nat (i mod Z.of_nat (length poly))) poly fzero.
Fixpoint farea_loop (f : format) (poly : list fpt) (n : nat) (i : Z) (res : num) : num :=
  match n with
  | O => res
  | S n =>
      farea_loop f poly n (i + 1)
        (fadd f res (fmul f (fx (fcyc poly i)) (fsub f (fy (fcyc poly (i + 1))) (fy (fcyc poly (i - 1))))))
  end.
Definition fpolygon_area (f : format) (poly : list fpt) : num := farea_loop f poly (length poly) 0 (Fin 0).

(** ** Convex hull: convex_hull/andrew_monotone_chain.hpp:29-57 *)
(* std::minmax_element and std::sort, used at lines 33, 39, 49. *)
Fixpoint fmin_point (p : fpt) (l : list fpt) : fpt :=
  match l with [] => p | q :: l => fmin_point (if fpless q p then q else p) l end.
Fixpoint fmax_point (p : fpt) (l : list fpt) : fpt :=
  match l with [] => p | q :: l => fmax_point (if fpless q p then p else q) l end.
Fixpoint finsert (lt : fpt -> fpt -> bool) (x : fpt) (l : list fpt) : list fpt :=
  match l with [] => [x] | y :: l' => if lt y x then y :: finsert lt x l' else x :: l end.
Definition fsort (lt : fpt -> fpt -> bool) (l : list fpt) : list fpt := fold_right (finsert lt) [] l.
Definition fpgreater (l r : fpt) : bool := fpless r l.
(** Lines 41-45 *)
Fixpoint fpop (f : format) (p : fpt) (st : list fpt) : list fpt :=
  match st with
  | t :: (o :: _) as rest => if forient3 f p t o =? GeoModel.o_right then st else fpop f p rest
  | _ => st
  end.
(** Lines 50-51 *)
Definition fpush (f : format) (st : list fpt) (p : fpt) : list fpt := p :: fpop f p st.
(** Lines 29-57 *)
Definition fconvex_hull (f : format) (points : list fpt) : outcome (list fpt) :=
  match points with
  | [] | [_] => Ok points
  | p :: ps =>
      let l := fmake_line f (fmin_point p ps) (fmax_point p ps) in
      let comp := fun q => negb (forient_pl f q l =? GeoModel.o_right) in
      let lower := fsort fpless (filter comp points) in
      let upper := fsort fpgreater (filter (fun q => negb (comp q)) points) in
      match lower with
      | p0 :: p1 :: rest =>
          let st := fpop f p0 (fold_left (fpush f) (rest ++ upper) [p1; p0]) in
          Ok (rev (match st with
                   | [a; b] => if fpeq b a then [b] else st
                   | _ => st
                   end))
      | _ => AssertFail
      end
  end.

(** ** Winding number: polygon/winding_number.hpp:31-54 for one edge, 29-56, 19-57 *)
Definition fedge_step (f : format) (p a b : fpt) : option Z :=
  if fpeq p a then None
  else if neq (fy a) (fy p) && neq (fy b) (fy p) then
    if nless (fx a) (fx b)
    then if negb (nless (fx p) (fx a)) && negb (nless (fx b) (fx p)) then None else Some 0
    else if negb (nless (fx p) (fx b)) && negb (nless (fx a) (fx p)) then None else Some 0
  else
    let below := nless (fy a) (fy p) in
    if negb (Bool.eqb below (nless (fy b) (fy p))) then
      let orient := forient3 f p b a in
      if orient =? GeoModel.o_collinear then None
      else if Bool.eqb below (orient =? GeoModel.o_right) then Some (if below then 1 else -1) else Some 0
    else Some 0.
Fixpoint fwinding_loop (f : format) (p : fpt) (poly : list fpt) (n : nat) (i res : Z) : PolyModel.winding :=
  match n with
  | O => PolyModel.Wind res
  | S n =>
      match fedge_step f p (fcyc poly i) (fcyc poly (i + 1)) with
      | None => PolyModel.Boundary
      | Some d => fwinding_loop f p poly n (i + 1) (res + d)
      end
  end.
Definition fwinding_number (f : format) (p : fpt) (poly : list fpt) : PolyModel.winding :=
  match poly with
  | [] => PolyModel.Wind 0
  | [a] => if fpeq p a then PolyModel.Boundary else PolyModel.Wind 0
  | _ => fwinding_loop f p poly (length poly) 0 0
  end.
(** within/simple_polygon.hpp:15-27 *)
Definition fwithin_simple (f : format) (p : fpt) (poly : list fpt) : PolyModel.within :=
  match fwinding_number f p poly with
  | PolyModel.Wind 0 => PolyModel.Outside
  | PolyModel.Boundary => PolyModel.Border
  | PolyModel.Wind _ => PolyModel.Inside
  end.
(** within/triangle.hpp:18-36 *)
Definition fwithin_triangle (f : format) (p : fpt) (poly : list fpt) : outcome PolyModel.within :=
  if negb (Z.of_nat (length poly) =? 3) then AssertFail
  else
    let s := fun i => forient3 f p (fcyc poly (i + 1)) (fcyc poly i) in
    if (s 0 =? s 1) && (s 1 =? s 2) then Ok PolyModel.Inside
    else if existsb (fun i => negb (s i =? GeoModel.o_collinear) && (s i =? - s (if i + 1 =? 3 then 0 else i + 1))) [0; 1; 2]
         then Ok PolyModel.Outside
         else Ok PolyModel.Border.

(** std::lower_bound, used at within/monotone_polygon.hpp:31-34 and
    within/convex_monotone_polygon.hpp:42-48 *)
Fixpoint flower_bound (less : fpt -> fpt -> bool) (l : list fpt) (p : fpt) : nat :=
  match l with [] => 0 | v :: l => if less v p then S (flower_bound less l p) else 0 end%nat.
(** within/convex_monotone_polygon.hpp:39-45, 46-54 *)
Definition fvertex (poly : list fpt) (i : nat) : fpt := nth i poly fzero.
Definition flower_test (f : format) (p : fpt) (poly : list fpt) (right : nat) : Z :=
  let lit := (1 + flower_bound fpless (firstn (right - 1) (skipn 1 poly)) p)%nat in
  forient3 f p (fvertex poly lit) (fvertex poly (lit - 1)).
Definition fupper_test (f : format) (p : fpt) (poly : list fpt) (right : nat) : Z :=
  let rpoly := rev poly in
  let uit := flower_bound fpless (firstn (length poly - right - 1) rpoly) p in
  forient3 f p (match uit with O => fvertex poly 0 | S u => fvertex rpoly u end) (fvertex rpoly uit).
(** Lines 17-56 *)
Definition fwithin_convex (f : format) (p : fpt) (poly : list fpt) (right : nat) : outcome PolyModel.within :=
  match poly with
  | [] => Ok PolyModel.Outside
  | [a] => Ok (if fpeq p a then PolyModel.Border else PolyModel.Outside)
  | v0 :: _ =>
      let vr := fvertex poly right in
      if fpless p v0 || fpless vr p then Ok PolyModel.Outside
      else
        let o := forient3 f p vr v0 in
        if o =? GeoModel.o_collinear then
          Ok (if fpeq p v0 || fpeq p vr then PolyModel.Border
              else if Nat.eqb right 1 || Nat.eqb (right + 1) (length poly) then PolyModel.Border else PolyModel.Inside)
        else if o =? GeoModel.o_left then PolyModel.to_inclusion (flower_test f p poly right)
        else PolyModel.to_inclusion (fupper_test f p poly right)
  end.
(** within/monotone_polygon.hpp:17-42 *)
Definition fwithin_monotone (f : format) (p : fpt) (poly : list fpt) (right : nat) : outcome PolyModel.within :=
  match poly with
  | [] => Ok PolyModel.Outside
  | [a] => Ok (if fpeq p a then PolyModel.Border else PolyModel.Outside)
  | v0 :: _ =>
      if fpless p v0 || fpless (fvertex poly right) p then Ok PolyModel.Outside
      else
        let o := flower_test f p poly right in
        PolyModel.to_inclusion (if o =? GeoModel.o_right then fupper_test f p poly right else o)
  end.

(** std::min_element, used at orientation/simple_polygon.hpp:21; lines 17-23. *)
Fixpoint fmin_index (less : fpt -> fpt -> bool) (l : list fpt) (i best : nat) (b : fpt) : nat :=
  match l with
  | [] => best
  | v :: l => if less v b then fmin_index less l (S i) i v else fmin_index less l (S i) best b
  end.
Definition forientation_simple (f : format) (poly : list fpt) : outcome Z :=
  match poly with
  | [] => UB
  | v :: l =>
      let i := Z.of_nat (fmin_index fpless l 1 0 v) in
      Ok (forient3 f (fcyc poly (i - 1)) (fcyc poly i) (fcyc poly (i + 1)))
  end.

(** orientation.hpp:40-43, point/sort_by_angle.hpp:40-57 *)
Definition fleft_turn (f : format) (l r : fpt) : bool := forient f l r =? GeoModel.o_left.
Definition fsort_by_angle (f : format) (points : list fpt) : list fpt :=
  let at_origin := fun x => neq (fx x) (Fin 0) && neq (fy x) (Fin 0) in
  let rest := filter (fun x => negb (at_origin x)) points in
  let upper := fy_compare fzero in
  filter at_origin points ++ fsort (fleft_turn f) (filter upper rest) ++
  fsort (fleft_turn f) (filter (fun x => negb (upper x)) rest).
