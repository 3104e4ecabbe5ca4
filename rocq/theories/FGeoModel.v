(** Model of orientation over floating point numbers: geometry/point.hpp,
    geometry/algorithm/{area,orientation}/point_point.hpp with the scalar type a binary
    floating point type.

    Every operation rounds its exact result to the nearest number of the format, ties to
    even, with gradual underflow; results of too great magnitude are infinite (IEEE 754).
    The two zeros are one number: no operation used here tells them apart.  Contraction
    of a product and a difference into one operation (FMA) and wider intermediate
    formats are not modelled. *)
From Coq Require Import ZArith QArith Qround Qpower List Bool.
Local Open Scope Q_scope.

(** A format: bits of the significand, exponent of the least positive number, and
    exponent of the powers of two that are too great. *)
(* The language: float and double (IEEE 754), used as the scalar at geometry/point.hpp:157-160 and
   area/point_point.hpp:21-22. *)
Record format := { prec : Z; emin : Z; emax : Z }.
Definition double : format := {| prec := 53; emin := -1074; emax := 1024 |}.
Definition single : format := {| prec := 24; emin := -149; emax := 128 |}.

(** The integer nearest to a rational, the even one of two. *)
(* The language (IEEE 754). *)
Definition nearest (q : Q) : Z :=
  let f := Qfloor q in
  match Qcompare (q - inject_Z f) (1 # 2) with
  | Lt => f
  | Gt => (f + 1)%Z
  | Eq => if Z.even f then f else (f + 1)%Z
  end.
(** The [k] with 2^(k-1) <= q < 2^k for a positive number. *)
Definition magnitude (q : Q) : Z :=
  let k := (Z.log2 (Qnum q) - Z.log2 (Zpos (Qden q)))%Z in
  if Qlt_le_dec q (2 ^ k) then k else (k + 1)%Z.
(** The exponent of the last bit of the significand, and rounding of a positive number. *)
(* The language (IEEE 754). *)
Definition last_bit (f : format) (q : Q) : Z := Z.max (emin f) (magnitude q - prec f).
Definition round_pos (f : format) (q : Q) : Q :=
  inject_Z (nearest (q / 2 ^ last_bit f q)) * 2 ^ last_bit f q.
(** Rounding without an upper bound of exponents. *)
(* The language (IEEE 754). *)
Definition round (f : format) (q : Q) : Q :=
  match Qcompare q 0 with Gt => round_pos f q | Lt => - round_pos f (- q) | Eq => 0 end.

(** Numbers; [Inf true] is negative. *)
(* The language (IEEE 754): the operators at point.hpp:157-160 and area/point_point.hpp:21-22. *)
Inductive num := Fin (q : Q) | Inf (neg : bool) | NaN.
Definition to_num (f : format) (q : Q) : num :=
  let r := round f q in
  if Qlt_le_dec r (2 ^ emax f) then if Qlt_le_dec (- 2 ^ emax f) r then Fin (Qred r) else Inf true
  else Inf false.

Definition neg_num (a : num) : num :=
  match a with Fin q => Fin (- q) | Inf n => Inf (negb n) | NaN => NaN end.
Definition fadd (f : format) (a b : num) : num :=
  match a, b with
  | Fin x, Fin y => to_num f (x + y)
  | Inf n, Inf m => if eqb n m then Inf n else NaN
  | Inf n, Fin _ | Fin _, Inf n => Inf n
  | NaN, _ | _, NaN => NaN
  end.
Definition fsub (f : format) (a b : num) : num := fadd f a (neg_num b).
Definition fmul (f : format) (a b : num) : num :=
  match a, b with
  | Fin x, Fin y => to_num f (x * y)
  | Inf n, Inf m => Inf (xorb n m)
  | Inf n, Fin x | Fin x, Inf n =>
      match Qcompare x 0 with Eq => NaN | Gt => Inf n | Lt => Inf (negb n) end
  | NaN, _ | _, NaN => NaN
  end.
(** numeric/comparison/sgn.hpp:26, compare3way.hpp:22: (x > 0) - (x < 0) *)
Definition fsgn (a : num) : Z :=
  match a with
  | Fin q => match Qcompare q 0 with Gt => 1 | Lt => -1 | Eq => 0 end
  | Inf n => if n then -1 else 1
  | NaN => 0
  end%Z.

Record fpt := FP { fx : num; fy : num }.
(** point.hpp:157-160 *)
Definition fpsub (f : format) (l r : fpt) : fpt := FP (fsub f (fx l) (fx r)) (fsub f (fy l) (fy r)).
(** area/point_point.hpp:21-22 *)
Definition farea (f : format) (p0 p1 : fpt) : num :=
  fsub f (fmul f (fx p0) (fy p1)) (fmul f (fy p0) (fx p1)).
(** orientation/point_point.hpp:14-19: -1 left, 0 collinear, 1 right *)
Definition forient (f : format) (l r : fpt) : Z := fsgn (farea f r l).
(** orientation/point_point.hpp:21-29 *)
Definition forient3 (f : format) (l r origin : fpt) : Z :=
  forient f (fpsub f l origin) (fpsub f r origin).
