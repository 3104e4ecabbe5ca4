(** Model of the intersection of lines in the plane over floating point numbers: as CrossModel.v, with
    the arithmetic of FGeoModel.v. Both lines have the same format [f]; comparisons with NaN are false. *)
From Coq Require Import ZArith QArith List Bool.
From Verif Require Import FGeoModel FPolyModel FCrossModel.
From Verif Require VecModel CrossModel.
Import ListNotations.
Local Open Scope Z_scope.

(** line.hpp:98-107 with its kind *)
Record fkline := FK { fk_line : fline; fk_begin : VecModel.endpoint; fk_end : VecModel.endpoint }.
(** line.hpp:115-124, 206-213 *)
Definition fmake_kline (f : format) (a b : fpt) (ka kb : VecModel.endpoint) : fkline := FK (fmake_line f a b) ka kb.
(** point.hpp:157-160 *)
Definition fpadd (f : format) (l r : fpt) : fpt := FP (fadd f (fx l) (fx r)) (fadd f (fy l) (fy r)).
(** line.hpp:138-141 *)
Definition flend (f : format) (l : fline) : fpt := fpadd f (flbegin l) (flvec l).
(** line.hpp:149-152: the point at [s] *)
Definition fpoint_at (f : format) (l : fline) (s : num) : fpt :=
  FP (fadd f (fx (flbegin l)) (fmul f s (fx (flvec l)))) (fadd f (fy (flbegin l)) (fmul f s (fy (flvec l)))).

(** detail/line_test.hpp:27-33 *)
Definition fline_test (l : fkline) (n d : num) : bool :=
  CrossModel.endpoint_test nless (fk_begin l) (Fin 0) n && CrossModel.endpoint_test nless (fk_end l) n d.
(** intersect/line_line_2d.hpp:27-43 *)
Definition fcross_test (l r : fkline) (tarea larea rarea : num) : bool :=
  if nless tarea (Fin 0) then
    fline_test l (neg_num larea) (neg_num tarea) && fline_test r (neg_num rarea) (neg_num tarea)
  else fline_test l larea tarea && fline_test r rarea tarea.

(** intersect/line_line_2d.hpp:47-65 *)
Definition fintersect_scalar (f : format) (lhs rhs : fkline) : list num :=
  let tarea := farea f (flvec (fk_line rhs)) (flvec (fk_line lhs)) in
  if neq tarea (Fin 0) then []
  else
    let v := fpsub f (flbegin (fk_line lhs)) (flbegin (fk_line rhs)) in
    let larea := farea f v (flvec (fk_line rhs)) in
    let rarea := farea f v (flvec (fk_line lhs)) in
    if negb (fcross_test lhs rhs tarea larea rarea) then [] else [fdiv f larea tarea].
(** intersect/line_line_2d.hpp:67-80 with detail/scalar_to_point_adaptor.hpp:24-27 *)
Definition fintersect_general (f : format) (l r : fkline) : list fpt :=
  map (fpoint_at f (fk_line l)) (fintersect_scalar f l r).

(** detail/common_line.hpp:15-38; line 32 compares points, range/operation and compare3way.hpp:14-24 *)
Definition fmax_endpoint (lhs rhs : fpt * VecModel.endpoint) (start : bool) : fpt * VecModel.endpoint :=
  if VecModel.is_free (snd lhs) then
    if negb (VecModel.is_free (snd rhs)) then rhs
    else if Bool.eqb (fpless (fst lhs) (fst rhs)) start then lhs else rhs
  else if VecModel.is_free (snd rhs) then lhs
  else if negb (fpless (fst lhs) (fst rhs)) && negb (fpless (fst rhs) (fst lhs))
       then if Nat.leb (VecModel.ep_val (snd rhs)) (VecModel.ep_val (snd lhs)) then lhs else rhs
       else if Bool.eqb (fpless (fst rhs) (fst lhs)) start then lhs else rhs.
(** detail/common_line.hpp:54-58 *)
Definition fget_point (f : format) (l : fkline) (start : bool) : fpt * VecModel.endpoint :=
  if Bool.eqb (fpless fzero (flvec (fk_line l))) start then (flbegin (fk_line l), fk_begin l)
  else (flend f (fk_line l), fk_end l).
(** line.hpp:215-226 *)
Definition fmake_any_line (f : format) (a : fpt) (ka : VecModel.endpoint) (b : fpt) (kb : VecModel.endpoint) : fkline :=
  if Nat.ltb (VecModel.ep_val ka) (VecModel.ep_val kb) then FK (FL b (fpsub f a b)) kb ka else FK (FL a (fpsub f b a)) ka kb.
(** detail/common_line.hpp:47-67 *)
Definition fcommon_line (f : format) (l r : fkline) : list fkline :=
  let la := fmax_endpoint (fget_point f l true) (fget_point f r true) true in
  let lb := fmax_endpoint (fget_point f l false) (fget_point f r false) false in
  if CrossModel.endpoint_test fpless (snd la) (fst la) (fst lb)
  then [fmake_any_line f (fst la) (snd la) (fst lb) (snd lb)]
  else [].

(** intersect/line_line_2d.hpp:82-104 *)
Definition fintersect (f : format) (lhs rhs : fkline) : list fkline :=
  let tarea := farea f (flvec (fk_line rhs)) (flvec (fk_line lhs)) in
  let v := fpsub f (flbegin (fk_line lhs)) (flbegin (fk_line rhs)) in
  let larea := farea f v (flvec (fk_line rhs)) in
  if neq tarea (Fin 0) then if negb (neq larea (Fin 0)) then [] else fcommon_line f lhs rhs
  else
    let rarea := farea f v (flvec (fk_line lhs)) in
    if negb (fcross_test lhs rhs tarea larea rarea) then []
    else [FK (FL (fpoint_at f (fk_line lhs) (fdiv f larea tarea)) fzero) VecModel.Closed VecModel.Closed].
(** crosses/line_line_2d.hpp:37-44 *)
Definition fcrosses (f : format) (l r : fkline) : bool := match fintersect f l r with [] => false | _ => true end.
