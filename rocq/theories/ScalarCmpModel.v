(** Model of comparisons, differences, quotients, negation and absolute values of integers of
    any (also different) types, and of comparisons with an absolute error.
    Operands are integers of 8 to 64 bits; bool and floating point are not modelled. *)
From Coq Require Import ZArith List Bool.
From Verif Require Import Outcome IntTypes IterModel ScalarOpModel.
Local Open Scope Z_scope.

(** numeric/comparison/ordering.hpp:23-26 *)
Definition is_less (l r : tval) : bool := tcmp Z.ltb l r.
(** ordering.hpp:48 *)
Definition is_greater (l r : tval) : bool := is_less r l.
(** ordering.hpp:59 *)
Definition is_less_or_equal (l r : tval) : bool := negb (is_greater l r).
(** ordering.hpp:67 *)
Definition is_greater_or_equal (l r : tval) : bool := negb (is_less l r).
(** comparison/equality.hpp:42-45 *)
Definition is_equal (l r : tval) : bool := tcmp Z.eqb l r.
(** equality.hpp:25 *)
Definition is_not_equal (l r : tval) : bool := negb (is_equal l r).

(** lifetime/conversion/as.hpp:17-20 with Target = int, applied to a bool. *)
Definition as_int (b : bool) : tval := tint (if b then 1 else 0).
(** arithmetic/additive/subtract.hpp:37-40 *)
Definition subtract (l r : tval) : outcome tval := tbin Z.sub l r.
(** comparison/compare3way.hpp:22 *)
Definition compare3way (l r : tval) : outcome tval := subtract (as_int (is_greater l r)) (as_int (is_less l r)).
(** comparison/sgn.hpp:26; the constant 0_c is converted to int. *)
Definition sgn_ (x : tval) : outcome tval := compare3way x (tint 0).
(** arithmetic/additive/negate.hpp:31-34 *)
Definition negate (x : tval) : outcome tval := tneg x.
(** arithmetic/multiplicative/divide.hpp:37-40: truncated, undefined if the divisor is zero or
    the quotient is too large. *)
Definition divide (l r : tval) : outcome tval := tdiv Z.quot l r.
(** arithmetic/exponential/squared.hpp:17 *)
Definition squared (x : tval) : outcome tval := evaluate Multiply x x.
(** std::abs of a signed operand: narrow operands are promoted to int; undefined if the result
    is not representable. *)
(* The standard library ([c.math.abs], C++20), called at comparison/abs.hpp:30-31. *)
Definition std_abs (x : tval) : outcome tval :=
  let t := promote (tty x) in
  do z <- iarith t (Z.abs (tconv t x)); Ok {| tty := t; tz := z |}.
(** comparison/abs.hpp:25-33: the result is converted to the type of the argument. *)
Definition abs (x : tval) : outcome tval :=
  if negb (sgn (tty x)) then Ok x
  else do r <- std_abs x; Ok (as_ (tty x) r).

(** comparison/absolute_error.hpp:24-26: not (epsilon < abs(l - r)) *)
Definition equal_within (eps l r : tval) : outcome bool :=
  do d <- subtract l r; do a <- abs d; Ok (is_less_or_equal a eps).
(** absolute_error.hpp:29-31: epsilon < r - l *)
Definition less_within (eps l r : tval) : outcome bool :=
  do d <- subtract r l; Ok (is_less eps d).

(** subtract.hpp:26-28 (operator -=) and operation/operation/operation_base.hpp:67-78, 87-92: the
    difference is assigned to the first argument. *)
Definition subtract_into (l r : tval) : outcome tval := do d <- subtract l r; Ok (as_ (tty l) d).
