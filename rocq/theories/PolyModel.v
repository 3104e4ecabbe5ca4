(** Model of point location and polygon algorithms in the plane:
    geometry/algorithm/polygon/winding_number.hpp, geometry/algorithm/within,
    geometry/algorithm/orientation/{simple,convex}_polygon.hpp,
    geometry/algorithm/point/sort_by_angle.hpp, geometry/algorithm/nearest/multi_point.hpp,
    geometry/polygon.hpp.

    Integer coordinates and exact arithmetic as in GeoModel.v. *)
From Coq Require Import ZArith List Bool.
From Verif Require Import Outcome GeoModel.
Import ListNotations.
Local Open Scope Z_scope.

(** ** Winding number: polygon/winding_number.hpp:19-57 *)
(** The code returns the largest int for the boundary; here it is a value of its own, so the
    theorems about numbers assume fewer than 2^31 - 1 vertices. *)
Inductive winding := Boundary | Wind (n : Z).
(** Lines 31-54 for one edge: None for the boundary, else what is added to the result. *)
Definition edge_step (p a b : pt) : option Z :=
  if peq p a then None
  else if (py a =? py p) && (py b =? py p) then
    if px a <? px b
    then if negb (px p <? px a) && negb (px b <? px p) then None else Some 0
    else if negb (px p <? px b) && negb (px a <? px p) then None else Some 0
  else
    let below := py a <? py p in
    if negb (Bool.eqb below (py b <? py p)) then
      let orient := orient3 p b a in
      if orient =? o_collinear then None
      else if Bool.eqb below (orient =? o_right) then Some (if below then 1 else -1) else Some 0
    else Some 0.
Fixpoint winding_loop (p : pt) (poly : list pt) (n : nat) (i res : Z) : winding :=
  match n with
  | O => Wind res
  | S n =>
      match edge_step p (cyc poly i) (cyc poly (i + 1)) with
      | None => Boundary
      | Some d => winding_loop p poly n (i + 1) (res + d)
      end
  end.
Definition winding_number (p : pt) (poly : list pt) : winding :=
  match poly with
  | [] => Wind 0
  | [a] => if peq p a then Boundary else Wind 0
  | _ => winding_loop p poly (length poly) 0 0
  end.

(** within/within.hpp:13 *)
Inductive within := Inside | Border | Outside.
(** within/simple_polygon.hpp:15-27 *)
Definition within_simple (p : pt) (poly : list pt) : within :=
  match winding_number p poly with
  | Wind 0 => Outside
  | Boundary => Border
  | Wind _ => Inside
  end.

(** within/triangle.hpp:18-36 *)
Definition within_triangle (p : pt) (poly : list pt) : outcome within :=
  if negb (Z.of_nat (length poly) =? 3) then AssertFail
  else
    let s := fun i => orient3 p (cyc poly (i + 1)) (cyc poly i) in
    if (s 0 =? s 1) && (s 1 =? s 2) then Ok Inside
    else if existsb (fun i => negb (s i =? o_collinear) && (s i =? - s (if i + 1 =? 3 then 0 else i + 1))) [0; 1; 2]
         then Ok Outside
         else Ok Border.

(** detail/to_inclusion.hpp:14-18; UB for a value outside of the enumeration. *)
Definition to_inclusion (x : Z) : outcome within :=
  match 1 - x with 0 => Ok Inside | 1 => Ok Border | 2 => Ok Outside | _ => UB end.

(** std::lower_bound on a sorted range: the number of elements before the first one not less. *)
(* Used at within/monotone_polygon.hpp:31-34 and within/convex_monotone_polygon.hpp:42-48. *)
Fixpoint lower_bound (less : pt -> pt -> bool) (l : list pt) (p : pt) : nat :=
  match l with [] => 0 | v :: l => if less v p then S (lower_bound less l p) else 0 end%nat.

(** within/convex_monotone_polygon.hpp:17-56; [right] is the index of the greatest vertex. *)
Definition vertex (poly : list pt) (i : nat) : pt := nth i poly (P 0 0).
Definition lower_test (p : pt) (poly : list pt) (right : nat) : Z :=
  let lit := (1 + lower_bound pless (firstn (right - 1) (skipn 1 poly)) p)%nat in
  orient3 p (vertex poly lit) (vertex poly (lit - 1)).
Definition upper_test (p : pt) (poly : list pt) (right : nat) : Z :=
  let rpoly := rev poly in
  let uit := lower_bound pless (firstn (length poly - right - 1) rpoly) p in
  orient3 p (match uit with O => vertex poly 0 | S u => vertex rpoly u end) (vertex rpoly uit).
Definition within_convex (p : pt) (poly : list pt) (right : nat) : outcome within :=
  match poly with
  | [] => Ok Outside
  | [a] => Ok (if peq p a then Border else Outside)
  | v0 :: _ =>
      let vr := vertex poly right in
      if pless p v0 || pless vr p then Ok Outside
      else
        let o := orient3 p vr v0 in
        if o =? o_collinear then
          Ok (if peq p v0 || peq p vr then Border
              else if Nat.eqb right 1 || Nat.eqb (right + 1) (length poly) then Border else Inside)
        else if o =? o_left then to_inclusion (lower_test p poly right)
        else to_inclusion (upper_test p poly right)
  end.
(** within/monotone_polygon.hpp:17-42 *)
Definition within_monotone (p : pt) (poly : list pt) (right : nat) : outcome within :=
  match poly with
  | [] => Ok Outside
  | [a] => Ok (if peq p a then Border else Outside)
  | v0 :: _ =>
      if pless p v0 || pless (vertex poly right) p then Ok Outside
      else
        let o := lower_test p poly right in
        to_inclusion (if o =? o_right then upper_test p poly right else o)
  end.

(** ** Orientation of polygons *)
(** First index of the least element (std::min_element). *)
(* Used at orientation/simple_polygon.hpp:21. *)
Fixpoint min_index (less : pt -> pt -> bool) (l : list pt) (i best : nat) (b : pt) : nat :=
  match l with
  | [] => best
  | v :: l => if less v b then min_index less l (S i) i v else min_index less l (S i) best b
  end.
(** orientation/simple_polygon.hpp:17-23; empty polygon: dereferences the end. *)
Definition orientation_simple (poly : list pt) : outcome Z :=
  match poly with
  | [] => UB
  | v :: l =>
      let i := Z.of_nat (min_index pless l 1 0 v) in
      Ok (orient3 (cyc poly (i - 1)) (cyc poly i) (cyc poly (i + 1)))
  end.
(** orientation/convex_polygon.hpp:14-22 *)
Definition orientation_convex (poly : list pt) : Z :=
  match poly with a :: b :: c :: _ => orient3 a b c | _ => o_collinear end.

(** polygon.hpp:127-137: the vertices rotated to begin at the least one and the index of the
    greatest one (std::minmax_element: first least, last greatest). *)
Fixpoint max_index (less : pt -> pt -> bool) (l : list pt) (i best : nat) (b : pt) : nat :=
  match l with
  | [] => best
  | v :: l => if less v b then max_index less l (S i) best b else max_index less l (S i) i v
  end.
Definition to_monotone (poly : list pt) : list pt * Z :=
  match poly with
  | [] => ([], 0)
  | v :: l =>
      let mn := min_index pless l 1 0 v in
      let mx := max_index pless l 1 0 v in
      let right := Z.of_nat mx - Z.of_nat mn in
      (skipn mn poly ++ firstn mn poly, if right <? 0 then right + Z.of_nat (length poly) else right)
  end.

(** ** Sorting by angle: point/sort_by_angle.hpp *)
(** point.hpp:299-305 *)
Definition y_compare (l r : pt) : bool := (py l <? py r) || ((py l =? py r) && (px l <? px r)).
(** orientation.hpp:40-43 *)
Definition left_turn (l r : pt) : bool := orient l r =? o_left.
(** Lines 17-37: the comparator of lines 32-34 does not use the origin.  std::partition and
    std::sort may order equivalent points differently; they are stable here. *)
Definition sort_by_angle_around (points : list pt) (origin : pt) : list pt :=
  let at_origin := fun x => peq origin x in
  let rest := filter (fun x => negb (at_origin x)) points in
  let upper := y_compare origin in
  filter at_origin points ++ sort left_turn (filter upper rest) ++ sort left_turn (filter (fun x => negb (upper x)) rest).
(** Lines 40-57 *)
Definition sort_by_angle (points : list pt) : list pt :=
  let at_origin := fun x => (px x =? 0) && (py x =? 0) in
  let rest := filter (fun x => negb (at_origin x)) points in
  let upper := y_compare (P 0 0) in
  filter at_origin points ++ sort left_turn (filter upper rest) ++ sort left_turn (filter (fun x => negb (upper x)) rest).

(** ** Closest pair: nearest/multi_point.hpp *)
(** Distances are compared through their squares: [|x| < d] as [x * x < d * d]. *)
(* nearest/multi_point.hpp:30-33 *)
Definition dist2 (p q : pt) : Z := (px p - px q) * (px p - px q) + (py p - py q) * (py p - py q).
Definition closer : Type := Z * (pt * pt).
(** Lines 23-25 *)
Definition y_comp (l r : pt) : bool := py l <? py r.
(** Lines 29-35: the pairs in the order of the loops; the first one initialises the result. *)
Fixpoint index_pairs (points : list pt) : list (pt * pt) :=
  match points with [] => [] | p :: l => map (fun q => (p, q)) l ++ index_pairs l end.
Definition brute_step (res : closer) (pq : pt * pt) : closer :=
  let d := dist2 (fst pq) (snd pq) in if d <? fst res then (d, pq) else res.
(** A default constructed pair if there are less than two points. *)
(* multi_point.hpp:27-35 *)
Definition brute (points : list pt) : closer :=
  match index_pairs points with
  | [] => (0, (P 0 0, P 0 0))
  | pq :: l => fold_left brute_step l (dist2 (fst pq) (snd pq), pq)
  end.
(** std::merge *)
(* Used at multi_point.hpp:45. *)
Fixpoint merge_by (less : pt -> pt -> bool) (l1 : list pt) : list pt -> list pt :=
  match l1 with
  | [] => fun l2 => l2
  | a :: l1' =>
      fix go (l2 : list pt) : list pt :=
        match l2 with
        | [] => a :: l1'
        | b :: l2' => if less b a then b :: go l2' else a :: merge_by less l1' (b :: l2')
        end
  end.
(** [0 <= x < d] or [x < 0] for the square [d2] of [d]. *)
Definition lt_dist (x d2 : Z) : bool := (x <? 0) || (x * x <? d2).
(** Lines 50-56; [tmp] with the last element first. *)
Fixpoint strip_inner (p : pt) (tmp : list pt) (res : closer) : closer :=
  match tmp with
  | [] => res
  | q :: tmp =>
      if negb (lt_dist (py p - py q) (fst res)) then res
      else strip_inner p tmp (if dist2 p q <? fst res then (dist2 p q, (p, q)) else res)
  end.
(** Lines 47-59 *)
Fixpoint strip_loop (mx : Z) (points tmp : list pt) (res : closer) : closer :=
  match points with
  | [] => res
  | p :: points =>
      if lt_dist (Z.abs (px p - mx)) (fst res)
      then strip_loop mx points (p :: tmp) (strip_inner p tmp res)
      else strip_loop mx points tmp res
  end.
(** Lines 19-61: the result and the points as they are left. *)
Fixpoint nearest_rec (fuel : nat) (points : list pt) : outcome (closer * list pt) :=
  let n := length points in
  if (n <=? 3)%nat then Ok (brute points, sort y_comp points)
  else
    match fuel with
    | O => NoFuel
    | S fuel =>
        let middle := (n / 2)%nat in
        let mx := px (nth middle points (P 0 0)) in
        do (lres, lpoints) <- nearest_rec fuel (firstn middle points);
        do (rres, rpoints) <- nearest_rec fuel (skipn middle points);
        let res := if fst rres <? fst lres then rres else lres in
        let points := merge_by y_comp lpoints rpoints in
        Ok (strip_loop mx points [] res, points)
    end.
(** Lines 71-74 *)
Fixpoint adjacent_equal (points : list pt) : option (pt * pt) :=
  match points with
  | p :: ((q :: _) as l) => if peq p q then Some (p, q) else adjacent_equal l
  | _ => None
  end.
(** Lines 66-78 *)
Definition nearest_pair (points : list pt) : outcome (pt * pt) :=
  if negb (1 <? Z.of_nat (length points)) then AssertFail
  else
    let points := sort pless points in
    match adjacent_equal points with
    | Some pq => Ok pq
    | None => do (res, _) <- nearest_rec (length points) points; Ok (snd res)
    end.
