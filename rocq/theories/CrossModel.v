(** Model of intersections: geometry/algorithm/{intersect,crosses,within}, geometry/detail,
    geometry/algorithm/point/circumcenter.hpp, geometry/sphere.hpp.

    Exact rational scalars as in VecModel.v.  Square roots are a parameter: the function
    [root] stands for math square_root of the policy. *)
From Coq Require Import QArith Qcanon List Bool.
From Verif Require Import Outcome VecModel.
Import ListNotations.
Local Open Scope Qc_scope.

(** detail/line_test.hpp:13-25; [less] is the order of the scalars or of the points. *)
Definition endpoint_test {A} (less : A -> A -> bool) (kind : endpoint) (l r : A) : bool :=
  match kind with
  | Free => true
  | Closed => negb (less r l)
  | Open => less l r
  end.
(** detail/line_test.hpp:27-33 *)
Definition line_test (l : line) (num den : Qc) : bool :=
  endpoint_test qlt (kbegin l) 0 num && endpoint_test qlt (kend l) num den.

(** geometry/point.hpp:162-180: lexicographic order and equality of points. *)
Fixpoint vless (l r : vec) : bool :=
  match l, r with
  | x :: l, y :: r => qlt x y || (negb (qlt y x) && vless l r)
  | [], _ :: _ => true
  | _, _ => false
  end.
Definition veq (l r : vec) : bool := negb (vless l r) && negb (vless r l).

(** intersect/line_line_2d.hpp:27-43 *)
Definition cross_test (l r : line) (tarea larea rarea : Qc) : bool :=
  if qlt tarea 0 then line_test l (- larea) (- tarea) && line_test r (- rarea) (- tarea)
  else line_test l larea tarea && line_test r rarea tarea.

(** intersect/line_line_2d.hpp:47-65: parameters of the intersections on the first line. *)
Definition intersect_scalar (lhs rhs : line) : list Qc :=
  let tarea := area2 (lvec rhs) (lvec lhs) in
  if is0 tarea then []
  else
    let v := vsub (lbegin lhs) (lbegin rhs) in
    let larea := area2 v (lvec rhs) in
    let rarea := area2 v (lvec lhs) in
    if negb (cross_test lhs rhs tarea larea rarea) then [] else [larea / tarea].
(** intersect/line_line_2d.hpp:67-80 *)
Definition intersect_general (l r : line) : list vec := map (at_ l) (intersect_scalar l r).

(** detail/common_line.hpp:15-38 *)
Definition max_endpoint (lhs rhs : vec * endpoint) (start : bool) : vec * endpoint :=
  if is_free (snd lhs) then
    if negb (is_free (snd rhs)) then rhs
    else if Bool.eqb (vless (fst lhs) (fst rhs)) start then lhs else rhs
  else if is_free (snd rhs) then lhs
  else if veq (fst lhs) (fst rhs)
       then if Nat.leb (ep_val (snd rhs)) (ep_val (snd lhs)) then lhs else rhs
       else if Bool.eqb (vless (fst rhs) (fst lhs)) start then lhs else rhs.
(** line.hpp:215-226; the kind of the result is valid. *)
Definition make_any_line (a : vec) (ka : endpoint) (b : vec) (kb : endpoint) : line :=
  if Nat.ltb (ep_val ka) (ep_val kb) then L b (vsub a b) kb ka else L a (vsub b a) ka kb.
(** detail/common_line.hpp:54-58 *)
Definition get_point (l : line) (start : bool) : vec * endpoint :=
  if Bool.eqb (vless (map (fun _ => 0) (lvec l)) (lvec l)) start then (lbegin l, kbegin l)
  else (lend l, kend l).
(** detail/common_line.hpp:47-67 *)
Definition common_line (l r : line) : list line :=
  let la := max_endpoint (get_point l true) (get_point r true) true in
  let lb := max_endpoint (get_point l false) (get_point r false) false in
  if endpoint_test vless (snd la) (fst la) (fst lb)
  then [make_any_line (fst la) (snd la) (fst lb) (snd lb)]
  else [].

(** intersect/line_line_2d.hpp:82-104; the point is a closed segment of zero length. *)
Definition intersect (lhs rhs : line) : list line :=
  let tarea := area2 (lvec rhs) (lvec lhs) in
  let v := vsub (lbegin lhs) (lbegin rhs) in
  let larea := area2 v (lvec rhs) in
  if is0 tarea then if negb (is0 larea) then [] else common_line lhs rhs
  else
    let rarea := area2 v (lvec lhs) in
    if negb (cross_test lhs rhs tarea larea rarea) then []
    else [L (at_ lhs (larea / tarea)) [0; 0] Closed Closed].
(** crosses/line_line_2d.hpp:37-44 *)
Definition crosses_lines (l r : line) : bool := match intersect l r with [] => false | _ => true end.

(** within/within.hpp:13 *)
Inductive within := Inside | Border | Outside.
(** detail/between_endpoints.hpp:13-27 *)
Definition is_half_open (l : line) : bool :=
  match kbegin l, kend l with Open, Closed => true | _, _ => false end.
Definition between_endpoints (p : vec) (l : line) : bool :=
  if is_free (kend l) then endpoint_test qlt (kbegin l) 0 (dot (vsub p (lbegin l)) (lvec l))
  else if is_half_open l && veq p (lbegin l) then false
  else endpoint_test qlt (kend l) 0 (dot (vsub (lbegin l) p) (vsub p (lend l))).
(** orientation.hpp:50-53, orientation/point_point.hpp:14-19 and 31-45: the overload for
    the plane is more specialized. *)
Definition collinear (l r : vec) : bool :=
  match l with [_; _] => is0 (area2 r l) | _ => collinear_n l r end.
(** within/line.hpp:15-25 *)
Definition within_line (p : vec) (l : line) : within :=
  if degenerate (lvec l) then if veq p (lbegin l) then Border else Outside
  else if negb (collinear (vsub p (lbegin l)) (lvec l)) then Outside
  else if between_endpoints p l then Border else Outside.
(** within/plane.hpp:14-20 *)
Definition within_plane (p : vec) (pl : plane) : within := if is0 (plane_value pl p) then Border else Outside.

(** point/circumcenter.hpp:14-32; the result has no value if [intersect] outputs nothing. *)
Definition circumcenter (a b c : vec) : outcome vec :=
  if is0 (area2 (vsub b c) (vsub a c)) then AssertFail
  else
    let l := L (vadd a b) (perpendicular (vsub a b)) Free Free in
    let r := L (vadd a c) (perpendicular (vsub a c)) Free Free in
    match intersect_general l r with
    | p :: _ => Ok (vscale (/ (1 + 1)) p)
    | [] => UB
    end.

(** ** Spheres *)
(** geometry/sphere.hpp:16-26 *)
Record sphere := Sp { center : vec; radius : Qc }.
(** squared(area(point, line)): area/point_line.hpp:14-19 and area/point_point.hpp:15-31,
    the square of the area of the parallelogram in dimension other than 2 and 3; by Lagrange
    this is the square of the area for these dimensions too. *)
Definition area_squared (p : vec) (l : line) : Qc :=
  let w := vsub p (lbegin l) in
  dot w w * dot (lvec l) (lvec l) - dot w (lvec l) * dot w (lvec l).
(** intersect/line_sphere.hpp:16-50 *)
Definition sphere_delta (l : line) (s : sphere) : Qc :=
  dot (lvec l) (lvec l) * (radius s * radius s) - area_squared (center s) l.
Definition intersect_sphere (root : Qc -> Qc) (l : line) (s : sphere) : list Qc :=
  let vdot := dot (lvec l) (lvec l) in
  let delta := sphere_delta l s in
  if qlt delta 0 then []
  else
    let projection := dot (vsub (center s) (lbegin l)) (lvec l) in
    let check := fun x => if line_test l x vdot then [x / vdot] else [] in
    if is0 delta then check projection
    else let offset := root delta in check (projection - offset) ++ check (projection + offset).

(** intersect/circle_circle.hpp:33-35, 41-46: the argument of the square root. *)
Definition circles_disc (l r : sphere) : Qc :=
  let cv := vsub (center r) (center l) in
  let d2 := dot cv cv in
  let a := (radius l * radius l - radius r * radius r) / d2 in
  let b := (radius l * radius l + radius r * radius r) / d2 in
  (1 + 1) * b - a * a - 1.
(** intersect/circle_circle.hpp:16-53; division by zero is undefined. *)
Definition intersect_circles (root : Qc -> Qc) (l r : sphere) : outcome (list vec) :=
  let cv := vsub (center r) (center l) in
  let d2 := dot cv cv in
  let dif := (radius l - radius r) * (radius l - radius r) in
  let sum := (radius l + radius r) * (radius l + radius r) in
  if qlt d2 dif || qlt sum d2 then Ok []
  else if is0 d2 then UB
  else
    let l2 := radius l * radius l in
    let r2 := radius r * radius r in
    let a := (l2 - r2) / d2 in
    let projection := vadd (center l) (vscale ((a + 1) / (1 + 1)) cv) in
    if is0 (d2 - dif) || is0 (sum - d2) then Ok [projection]
    else
      let offset := root (circles_disc l r) / (1 + 1) in
      let ov := vscale offset (perpendicular cv) in
      Ok [vsub projection ov; vadd projection ov].

(** crosses/sphere_sphere.hpp:15-22; [dist] is the distance of the centers. *)
Definition qabs (x : Qc) : Qc := if qlt x 0 then - x else x.
Definition crosses_spheres (dist : Qc) (l r : sphere) : bool :=
  negb (qlt dist (qabs (radius l - radius r))) && negb (qlt (radius l + radius r) dist).
(** within/sphere.hpp:15-22: 1 + compare3way; [dist] is the distance to the center. *)
Definition within_sphere (dist : Qc) (s : sphere) : within :=
  if qlt dist (radius s) then Inside else if qlt (radius s) dist then Outside else Border.

(** ** Output of points: detail/scalar_to_point_adaptor.hpp:15-48 *)
(** [*output++ = x] through the adaptor assigns the point of the line to [*m_iter] (24-27) and
    increments nothing (33-39); [assign] is the effect of an assignment through the iterator. *)
Definition write_through {O} (assign : O -> vec -> O) (l : line) (out : O) (xs : list Qc) : O :=
  fold_left (fun o x => assign o (at_ l x)) xs out.
(** An iterator into an array (the array and the position) writes at the position; a
    std::back_insert_iterator appends. *)
Definition assign_at (o : list vec * nat) (p : vec) : list vec * nat := (firstn (snd o) (fst o) ++ p :: skipn (S (snd o)) (fst o), snd o). (* The standard library; a client of scalar_to_point_adaptor.hpp:15-48 *)
Definition assign_back (o : list vec) (p : vec) : list vec := o ++ [p].  (* The standard library; a client of scalar_to_point_adaptor.hpp:15-48 *)
Definition write_scalars (l : line) (out : list vec * nat) (xs : list Qc) : list vec * nat := write_through assign_at l out xs. (* intersect.hpp:25-38 *)
Definition append_scalars (l : line) (out : list vec) (xs : list Qc) : list vec := write_through assign_back l out xs. (* intersect.hpp:25-38 *)
