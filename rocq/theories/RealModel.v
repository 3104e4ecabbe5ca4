(** Model of the text output of floating point numbers:
    io/format/text/arithmetic/real_write.hpp.

    A number is a sign bit and a kind; finite values are non-negative rationals
    (every finite floating point number is one).  [rnd] is the rounding of the
    floating point operations: the identity is exact arithmetic.  The cast to
    unsigned long long and the subtraction of the integer part are exact for
    floating point numbers and are not rounded. *)
From Coq Require Import ZArith List Bool QArith Qround.
From Verif Require Import Outcome IntTextModel.
Import ListNotations.
Local Open Scope Z_scope.

(* The values of a floating point type without the sign of zero (IEEE 754). *)
Inductive real := RNan | RInf | RFin (x : Q).

(** real_write.hpp:97-98 *)
Definition put_sign (cap : Z) (f : fmt) (neg : bool) (buf : list Z) : outcome (list Z) :=
  if neg then putc cap 45 buf else if f_showpos f then putc cap 43 buf else Ok buf.

(** Lines 87-92: [p] digits of the fraction at the end of the buffer; filling
    from a position after the first digit is UB. *)
Definition put_fraction (cap : Z) (f : fmt) (p : nat) (fp base : Z) : outcome (list Z) :=
  match p with
  | O => Ok []
  | _ => do buf <- uitoa cap f fp base [];
         if (length buf <=? p)%nat then Ok (repeat 48 (p - length buf) ++ buf) else UB
  end.

(** Lines 48-101; [p] is the precision.  A cast of a value not below 2^64 is UB. *)
Definition real_encode (rnd : Q -> Q) (f : fmt) (showpoint : bool) (p : nat) (neg : bool) (r : real) : outcome (list Z) :=
  match r with
  | RNan => put_sign 4 f neg (if f_uppercase f then [78; 65; 78] else [110; 97; 110])
  | RInf => put_sign 4 f neg (if f_uppercase f then [73; 78; 70] else [105; 110; 102])
  | RFin x =>
      let base := f_base f in
      let base_power := base ^ Z.of_nat p mod 2 ^ 64 in
      let ip := Qfloor x in
      let t := rnd (rnd ((x - inject_Z ip) * rnd (inject_Z base_power)) + (1 # 2))%Q in
      let fp := Qfloor t in
      if (2 ^ 64 <=? ip) || (2 ^ 64 <=? fp) then UB
      else
        let carry := base_power <=? fp in
        let ip := if carry then (ip + 1) mod 2 ^ 64 else ip in
        let fp := if carry then 0 else fp in
        let cap := digit_count 64 (2 ^ 64 - 1) (if base <? 10 then 2 else 10) + 1 + Z.of_nat p in
        do buf <- put_fraction cap f p fp base;
        do buf <- if (0 <? p)%nat || showpoint then putc cap 46 buf else Ok buf;
        do buf <- uitoa cap f ip base buf;
        put_sign cap f neg buf
  end.
