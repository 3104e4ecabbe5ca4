(** Model of geometry/algorithm/intersect/line_simple_polygon.hpp with
    geometry/detail/between_endpoints.hpp and the line scalar of
    geometry/algorithm/project/point_line.hpp.

    Integer coordinates as in GeoModel.v; the quotients of [ratio] are rational numbers.  The
    header names the policy [P] without declaring it (line 22) and the iterator [it] in place of
    [iter] (line 34); both are taken as meant. *)
From Coq Require Import ZArith QArith List Bool.
From Verif Require Import Outcome GeoModel PolyModel ExtremeModel ChordModel.
Import ListNotations.
Local Open Scope Z_scope.

(** detail/between_endpoints.hpp:13-27 *)
Definition between_endpoints (kb ke : endpoint) (p : pt) (l : line) : bool :=
  match ke with
  | Free => endpoint_test kb 0 (dot (psub p (lbegin l)) (lvec l))
  | _ =>
      if match kb, ke with Open, Closed => peq p (lbegin l) | _, _ => false end then false
      else endpoint_test ke 0 (dot (psub (lbegin l) p) (psub p (lend l)))
  end.
(** project/point_line.hpp:14-22 *)
Definition project_scalar (p : pt) (l : line) : Q :=
  Qdiv (inject_Z (dot (psub p (lbegin l)) (lvec l))) (inject_Z (dot (lvec l) (lvec l))).

(** Lines 36-51: what is written for one vertex, given its sign and those of its neighbours. *)
Definition vertex_step (kb ke : endpoint) (l : line) (poly : list pt) (i prev_sgn iter_sgn next_sgn : Z) : list Q :=
  let p := cyc poly i in
  if iter_sgn =? 0 then
    let ok :=
      if prev_sgn =? 0 then next_sgn =? Z.sgn (dot (psub p (cyc poly (i - 1))) (lvec l))
      else if next_sgn =? 0 then prev_sgn =? Z.sgn (dot (psub (cyc poly (i + 1)) p) (lvec l))
      else negb (next_sgn =? prev_sgn) in
    if ok && between_endpoints kb ke p l then [project_scalar p l] else []
  else if next_sgn =? - iter_sgn then cross_scalar kb ke l (make_line p (cyc poly (i + 1)))
  else [].
(** Lines 35-55 *)
Fixpoint simple_loop (kb ke : endpoint) (l : line) (poly : list pt) (n : nat) (i prev_sgn iter_sgn : Z) : list Q :=
  match n with
  | O => []
  | S n =>
      let next_sgn := orient_pl (cyc poly (i + 1)) l in
      vertex_step kb ke l poly i prev_sgn iter_sgn next_sgn ++ simple_loop kb ke l poly n (i + 1) iter_sgn next_sgn
  end.
(** Lines 19-57; line 34 dereferences iterators of an empty polygon. *)
Definition intersect_simple (kb ke : endpoint) (l : line) (poly : list pt) : outcome (list Q) :=
  assert_then (negb (peq (lvec l) (P 0 0)))
    (match poly with
     | [] => UB
     | _ => Ok (simple_loop kb ke l poly (length poly) 0 (orient_pl (cyc poly (-1)) l) (orient_pl (cyc poly 0) l))
     end).
