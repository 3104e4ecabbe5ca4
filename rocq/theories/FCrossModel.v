(** Model of the point of intersection of two lines and of the projection of a point, for integer
    coordinates: the areas and products are integers (MCrossModel.v), the ratio and the point computed
    from it are of type double (geometry/traits.hpp:102, cast_before<Div, double>).

    As in FGeoModel.v every operation of double rounds its exact result to the nearest number, without
    contraction into fused operations; the two zeros are one number. *)
From Coq Require Import ZArith QArith List Bool.
From Verif Require Import Outcome IntTypes GeoModel MGeoModel MCrossModel FGeoModel.

(** Conversion of an integer to double *)
(* The language (IEEE 754), at traits.hpp:102 and line.hpp:151. *)
Definition of_int (z : Z) : num := to_num double (inject_Z z).
(** The quotient of two numbers *)
(* The language (IEEE 754); division by the positive zero *)
Definition fdiv (f : format) (a b : num) : num :=
  match a, b with
  | Fin x, Fin y =>
      match Qcompare y 0 with
      | Eq => match Qcompare x 0 with Eq => NaN | Gt => Inf false | Lt => Inf true end
      | _ => to_num f (x / y)
      end
  | Inf n, Fin y => match Qcompare y 0 with Lt => Inf (negb n) | _ => Inf n end
  | Fin _, Inf _ => Fin 0
  | Inf _, Inf _ => NaN
  | NaN, _ | _, NaN => NaN
  end.
(** The ratio of two integers, intersect/line_line_2d.hpp:63, 100 and project/point_line.hpp:19 with traits.hpp:102 *)
Definition mratio (n d : Z) : num := fdiv double (of_int n) (of_int d).
(** line.hpp:149-152: the point at [s] *)
Definition fline_at (l : line) (s : num) : fpt :=
  FP (fadd double (of_int (px (lbegin l))) (fmul double s (of_int (px (lvec l)))))
     (fadd double (of_int (py (lbegin l))) (fmul double s (of_int (py (lvec l))))).
(** intersect/line_line_2d.hpp:67-80 with detail/scalar_to_point_adaptor.hpp:24-27 *)
Definition mintersect_point (t : ity) (lhs rhs : kline) : outcome (option fpt) :=
  do o <- mintersect_scalar t lhs rhs;
  Ok (match o with Some (n, d) => Some (fline_at (k_line lhs) (mratio n d)) | None => None end).
(** project/point_line.hpp:14-22 *)
Definition mproject_scalar (t : ity) (p : pt) (l : line) : outcome num :=
  do v <- mpsub t p (lbegin l);
  do n <- mdot (promote t) v (lvec l);
  do d <- mdot t (lvec l) (lvec l);
  Ok (mratio n d).
(** project/point_line.hpp:24-29 *)
Definition mproject (t : ity) (p : pt) (l : line) : outcome fpt :=
  do s <- mproject_scalar t p l; Ok (fline_at l s).
