(** Costs of geometric searches: the functions of GeoModel.v, PolyModel.v, ExtremeModel.v and ChordModel.v
    with the number of predicates they evaluate. PropCost.v shows that the results are the same. *)
From Coq Require Import ZArith List Bool.
From Verif Require Import Outcome GeoModel PolyModel ExtremeModel ChordModel.
Import ListNotations.
Local Open Scope Z_scope.

(** ** Extreme vertex: polygon/extreme_vertex.hpp:19-53; calls of [vertex_cmp] *)
(** Lines 26-34: the second comparison is skipped if the first one decides. *)
Definition is_extreme_c (direction : pt -> pt) (poly : list pt) (i : nat) : bool * Z * nat :=
  let at_ := fun k => cyc poly (Z.of_nat i + k) in
  let v := vertex_cmp direction (at_ 1) (at_ 0) in
  if v =? o_left then (false, v, 1%nat) else (vertex_cmp direction (at_ 0) (at_ (-1)) =? o_left, v, 2%nat).
(** Lines 39-52 *)
Fixpoint extreme_loop_c (fuel : nat) (direction : pt -> pt) (poly : list pt) (first : nat) (first_sgn : Z) (last : nat) : outcome (nat * nat) :=
  if Nat.eqb (first + 1) last then Ok (first, 0%nat)
  else
    match fuel with
    | O => NoFuel
    | S fuel =>
        let middle := (first + (last - first) / 2)%nat in
        let '(middle_ok, middle_sgn, c) := is_extreme_c direction poly middle in
        if middle_ok then Ok (middle, c)
        else
          let '(go_left, c1) :=
            if negb (first_sgn =? middle_sgn) then (first_sgn <? middle_sgn, 0%nat)
            else (first_sgn =? vertex_cmp direction (vertex poly first) (vertex poly middle), 1%nat) in
          do (r, c2) <- (if go_left : bool then extreme_loop_c fuel direction poly first first_sgn middle
                         else extreme_loop_c fuel direction poly middle middle_sgn last);
          Ok (r, (c + c1 + c2)%nat)
    end.
(** Lines 19-38 *)
Definition extreme_vertex_c (direction : pt -> pt) (poly : list pt) : outcome (nat * nat) :=
  if (length poly <=? 1)%nat then AssertFail
  else
    let '(first_ok, first_sgn, c) := is_extreme_c direction poly 0 in
    if first_ok then Ok (0%nat, c)
    else do (r, c') <- extreme_loop_c (length poly) direction poly 0 first_sgn (length poly); Ok (r, (c + c')%nat).
(** tangents/point_convex_polygon.hpp:17-29 *)
Definition polygon_tangents_c (p : pt) (poly : list pt) : outcome (nat * nat * nat) :=
  do (l, c) <- extreme_vertex_c (fun x => psub x p) poly;
  do (r, c') <- extreme_vertex_c (fun x => psub p x) poly;
  Ok (l, r, (c + c')%nat).

(** ** Chord of a convex polygon: intersect/line_convex_polygon.hpp; comparisons of the extreme vertices,
    orientations and intersections with an edge *)
(** Lines 47-54 *)
Fixpoint chain_loop_c (fuel : nat) (l : line) (poly : list pt) (first last : nat) (first_orient : Z) : outcome (nat * nat * nat) :=
  let n := length poly in
  if Nat.eqb (cyclic_plus n first 1) last then Ok (first, last, 0%nat)
  else
    match fuel with
    | O => NoFuel
    | S fuel =>
        let middle := cyclic_plus n first (cyclic_minus n last first / 2) in
        do (r, c) <- (if orient_pl (vertex poly middle) l =? first_orient then chain_loop_c fuel l poly middle last first_orient
                      else chain_loop_c fuel l poly first middle first_orient);
        Ok (r, S c)
    end.
(** Lines 45-58 *)
Definition intersect_chain_c (kb ke : endpoint) (l : line) (poly : list pt) (first last : nat) (first_orient : Z) : outcome (list QArith_base.Q * nat) :=
  do (fl, c) <- chain_loop_c (length poly) l poly first last first_orient;
  let (first, last) := fl in
  Ok (cross_scalar kb ke l (make_line (vertex poly first) (vertex poly last)), S c).
(** Lines 19-61 *)
Definition intersect_polygon_c (kb ke : endpoint) (l : line) (poly : list pt) : outcome (list QArith_base.Q * nat) :=
  assert_then (negb (peq (lvec l) (P 0 0)))
    (do (rightmost, c1) <- extreme_vertex_c (fun _ => lvec l) poly;
     do (leftmost, c2) <- extreme_vertex_c (fun _ => psub (P 0 0) (lvec l)) poly;
     let right_orient := orient_pl (vertex poly rightmost) l in
     let left_orient := orient_pl (vertex poly leftmost) l in
     if (left_orient =? o_left) || (right_orient =? o_right) then Ok ([], (c1 + c2 + 2)%nat)
     else
       do (o1, c3) <- intersect_chain_c kb ke l poly leftmost rightmost left_orient;
       do (o2, c4) <- intersect_chain_c kb ke l poly rightmost leftmost right_orient;
       Ok (o1 ++ o2, (c1 + c2 + 2 + c3 + c4)%nat)).

(** ** Convex hull: convex_hull/andrew_monotone_chain.hpp:29-57; orientations *)
(** Lines 41-45 *)
Fixpoint pop_c (p : pt) (st : list pt) : list pt * nat :=
  match st with
  | t :: (o :: _) as rest =>
      if orient3 p t o =? o_right then (st, 1%nat) else let (st, c) := pop_c p rest in (st, S c)
  | _ => (st, 0%nat)
  end.
(** Lines 50-51 *)
Definition push_c (sc : list pt * nat) (p : pt) : list pt * nat :=
  let (st, c) := pop_c p (fst sc) in (p :: st, (snd sc + c)%nat).
(** Lines 29-57; the partition in line 37 takes one orientation for every point. *)
Definition convex_hull_c (points : list pt) : outcome (list pt * nat) :=
  match points with
  | [] | [_] => Ok (points, 0%nat)
  | p :: ps =>
      let l := make_line (min_point p ps) (max_point p ps) in
      let comp := fun q => negb (orient_pl q l =? o_right) in
      let lower := sort pless (filter comp points) in
      let upper := sort pgreater (filter (fun q => negb (comp q)) points) in
      match lower with
      | p0 :: p1 :: rest =>
          let '(st, c) := fold_left push_c (rest ++ upper) ([p1; p0], 0%nat) in
          let '(st, c') := pop_c p0 st in
          Ok (rev (match st with
                   | [a; b] => if peq b a then [b] else st
                   | _ => st
                   end), (length points + c + c')%nat)
      | _ => AssertFail
      end
  end.

(** ** Closest pair: nearest/multi_point.hpp; distances, and comparisons of coordinates and elements *)
(** Lines 50-56: a comparison, then a distance. *)
Fixpoint strip_inner_c (p : pt) (tmp : list pt) (res : closer) : closer * nat :=
  match tmp with
  | [] => (res, 0%nat)
  | q :: tmp =>
      if negb (lt_dist (py p - py q) (fst res)) then (res, 1%nat)
      else let (r, c) := strip_inner_c p tmp (if dist2 p q <? fst res then (dist2 p q, (p, q)) else res) in (r, (2 + c)%nat)
  end.
(** Lines 47-59 *)
Fixpoint strip_loop_c (mx : Z) (points tmp : list pt) (res : closer) : closer * nat :=
  match points with
  | [] => (res, 0%nat)
  | p :: points =>
      if lt_dist (Z.abs (px p - mx)) (fst res)
      then
        let (r, c) := strip_inner_c p tmp res in
        let (r, c') := strip_loop_c mx points (p :: tmp) r in (r, (1 + c + c')%nat)
      else let (r, c) := strip_loop_c mx points tmp res in (r, S c)
  end.
(** Lines 19-61; sorting at most three points in line 36 is not counted, merging n points in line 45 as n. *)
Fixpoint nearest_rec_c (fuel : nat) (points : list pt) : outcome (closer * list pt * nat) :=
  let n := length points in
  if (n <=? 3)%nat then Ok (brute points, sort y_comp points, length (index_pairs points))
  else
    match fuel with
    | O => NoFuel
    | S fuel =>
        let middle := (n / 2)%nat in
        let mx := px (nth middle points (P 0 0)) in
        do (l, c1) <- nearest_rec_c fuel (firstn middle points);
        do (r, c2) <- nearest_rec_c fuel (skipn middle points);
        let res := if fst (fst r) <? fst (fst l) then fst r else fst l in
        let points := merge_by y_comp (snd l) (snd r) in
        let (res, c) := strip_loop_c mx points [] res in
        Ok (res, points, (c1 + c2 + n + c)%nat)
    end.
(** Lines 66-78 without the sort in line 70; one comparison for every point in lines 71-74. *)
Definition nearest_pair_c (points : list pt) : outcome (pt * pt * nat) :=
  if negb (1 <? Z.of_nat (length points)) then AssertFail
  else
    let n := length points in
    let points := sort pless points in
    match adjacent_equal points with
    | Some pq => Ok (pq, n)
    | None => do (res, c) <- nearest_rec_c (length points) points; Ok (snd (fst res), (n + c)%nat)
    end.
