(** Model of geometry/algorithm/intersect/line_convex_polygon.hpp.

    Integer coordinates as in GeoModel.v; the quotients of [ratio] are rational numbers.  The
    header names the policy [P] without declaring it as a template parameter (line 20), which is
    taken as declared here. *)
From Coq Require Import ZArith QArith List Bool.
From Verif Require Import Outcome GeoModel PolyModel ExtremeModel.
Import ListNotations.
Local Open Scope Z_scope.

(** The endpoint of a line: geometry/line.hpp:14. *)
Inductive endpoint := Free | Closed | Open.
(** detail/line_test.hpp:13-33 *)
Definition endpoint_test (kind : endpoint) (l r : Z) : bool :=
  match kind with Free => true | Closed => negb (r <? l) | Open => l <? r end.
Definition line_test (kb ke : endpoint) (num den : Z) : bool := endpoint_test kb 0 num && endpoint_test ke num den.
(** intersect/line_line_2d.hpp:47-65 for a line of the kind [kb], [ke] and one without ends, whose
    [line_test] always holds. *)
Definition cross_scalar (kb ke : endpoint) (l : line) (edge : line) : list Q :=
  let tarea := area (lvec edge) (lvec l) in
  if tarea =? 0 then []
  else
    let larea := area (psub (lbegin l) (lbegin edge)) (lvec edge) in
    if negb (if tarea <? 0 then line_test kb ke (- larea) (- tarea) else line_test kb ke larea tarea) then []
    else [Qdiv (inject_Z larea) (inject_Z tarea)].

(** Positions of cyclic iterators: cyclic_iterator.hpp:48-68; offsets are less than the size. *)
Definition cyclic_plus (n i k : nat) : nat := (if n - i <=? k then i + k - n else i + k)%nat.
Definition cyclic_minus (n i j : nat) : nat := (if j <=? i then i - j else i + n - j)%nat.
(** Lines 47-54 *)
Fixpoint chain_loop (fuel : nat) (l : line) (poly : list pt) (first last : nat) (first_orient : Z) : outcome (nat * nat) :=
  let n := length poly in
  if Nat.eqb (cyclic_plus n first 1) last then Ok (first, last)
  else
    match fuel with
    | O => NoFuel
    | S fuel =>
        let middle := cyclic_plus n first (cyclic_minus n last first / 2) in
        if orient_pl (vertex poly middle) l =? first_orient then chain_loop fuel l poly middle last first_orient
        else chain_loop fuel l poly first middle first_orient
    end.
(** Lines 45-58 *)
Definition intersect_chain (kb ke : endpoint) (l : line) (poly : list pt) (first last : nat) (first_orient : Z) : outcome (list Q) :=
  do (first, last) <- chain_loop (length poly) l poly first last first_orient;
  Ok (cross_scalar kb ke l (make_line (vertex poly first) (vertex poly last))).
(** Lines 19-61; [degenerate] in line 26 is a zero vector. *)
Definition intersect_polygon (kb ke : endpoint) (l : line) (poly : list pt) : outcome (list Q) :=
  assert_then (negb (peq (lvec l) (P 0 0)))
    (do rightmost <- extreme_vertex (fun _ => lvec l) poly;
     do leftmost <- extreme_vertex (fun _ => psub (P 0 0) (lvec l)) poly;
     let right_orient := orient_pl (vertex poly rightmost) l in
     let left_orient := orient_pl (vertex poly leftmost) l in
     if (left_orient =? o_left) || (right_orient =? o_right) then Ok []
     else
       do o1 <- intersect_chain kb ke l poly leftmost rightmost left_orient;
       do o2 <- intersect_chain kb ke l poly rightmost leftmost right_orient;
       Ok (o1 ++ o2)).
