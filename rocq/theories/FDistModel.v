(** Model of the distance of a point to a line, ray or segment over floating point numbers: as VecModel.v,
    with the arithmetic of FGeoModel.v and FNearModel.v. *)
From Coq Require Import ZArith QArith List Bool.
From Verif Require Import FGeoModel FPolyModel FCrossModel FLineModel FNearModel.
From Verif Require VecModel.
Local Open Scope Z_scope.

(** point.hpp:210-218: from 0, in order *)
Definition fdot (f : format) (l r : fpt) : num :=
  fadd f (fadd f (Fin 0) (fmul f (fx l) (fx r))) (fmul f (fy l) (fy r)).
(** point/norm.hpp:14-17 with point.hpp:225-228 *)
Definition fnorm (f : format) (p : fpt) : num := fsqrt f (fdot f p p).
(** area/point_line.hpp:14-19 *)
Definition farea_pl (f : format) (p : fpt) (l : fline) : num := farea f (fpsub f p (flbegin l)) (flvec l).
(** distance/point_line.hpp:14-25; the ratio is the quotient in the same format, as in FLineModel.v (traits.hpp:102) *)
Definition fdistance_line (f : format) (p : fpt) (l : fkline) : num :=
  let g := fk_line l in
  if negb (VecModel.is_free (fk_begin l)) && nless (fdot f (fpsub f p (flbegin g)) (flvec g)) (Fin 0)
  then fnorm f (fpsub f p (flbegin g))
  else if negb (VecModel.is_free (fk_end l)) && nless (Fin 0) (fdot f (fpsub f p (flend f g)) (flvec g))
  then fnorm f (fpsub f p (flend f g))
  else fdiv f (nabs (farea_pl f p g)) (fnorm f (flvec g)).
