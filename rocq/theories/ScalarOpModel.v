(** Model of the binary operations on integers that are declared to be associative and
    commutative, of their identity elements, of allow_promotion and of inout arguments.
    Operands are integers of 8 to 64 bits; bool and floating point are not modelled. *)
From Coq Require Import ZArith List Bool.
From Verif Require Import Outcome IntTypes IterModel.
Local Open Scope Z_scope.

Inductive bop := Add | Multiply | BitAnd | BitOr | BitXor | Min | Max.

(** Conversion: static_cast<t>(x). *)
(* The language ([expr.static.cast], C++20). *)
Definition as_ (t : ity) (x : tval) : tval := {| tty := t; tz := wrap t (tz x) |}.
(** The type of [c ? x : y] and std::common_type: no promotion if the types are the same. *)
(* The language ([expr.cond], C++20). *)
Definition cond_type (a b : ity) : ity :=
  if (bits a =? bits b) && Bool.eqb (sgn a) (sgn b) then a else common (promote a) (promote b).
(** Bitwise operators of C++; operands are converted as for arithmetic. *)
(* The language ([expr.bit.and], C++20); the lines of [evaluate] are cited case by case. *)
Definition tbit (f : Z -> Z -> Z) (x y : tval) : tval :=
  let t := common (promote (tty x)) (promote (tty y)) in
  {| tty := t; tz := wrap t (f (tconv t x) (tconv t y)) |}.

Definition evaluate (o : bop) (x y : tval) : outcome tval :=
  match o with
  | Add => tbin Z.add x y        (* arithmetic/additive/add.hpp:49-52 *)
  | Multiply => tbin Z.mul x y   (* arithmetic/multiplicative/multiply.hpp:46-49 *)
  | BitAnd => Ok (tbit Z.land x y)   (* bit/bit_and.hpp:47-50 *)
  | BitOr => Ok (tbit Z.lor x y)     (* bit/bit_or.hpp:47-50 *)
  | BitXor => Ok (tbit Z.lxor x y)   (* bit/bit_xor.hpp:47-50 *)
  | Min => (* comparison/min_max.hpp:21-24, where less (not declared) is read as is_less; core/if_else.hpp:21-26; comparison/ordering.hpp:23-25 *)
      Ok (as_ (cond_type (tty x) (tty y)) (if tcmp Z.ltb y x then y else x))
  | Max => (* comparison/min_max.hpp:41-44 *)
      Ok (as_ (cond_type (tty x) (tty y)) (if tcmp Z.ltb x y then y else x))
  end.
(** bit/bit_not.hpp:30-32 *)
Definition bit_not (x : tval) : tval := {| tty := promote (tty x); tz := wrap (promote (tty x)) (Z.lnot (tz x)) |}.

(** T{z}: ill-formed (None) if the constant has to be narrowed. *)
(* The language ([dcl.init.list], C++20). *)
Definition list_init (t : ity) (z : Z) : option tval := if in_ityb t z then Some {| tty := t; tz := z |} else None.
(** identity_element<Op, T>::value(): add.hpp:19-24, multiply.hpp:18-23, bit_and.hpp:18-23,
    bit_or.hpp:18-23, bit_xor.hpp:18-23, min_max.hpp:28-33, 48-53 *)
Definition identity_element (o : bop) (t : ity) : option tval :=
  match o with
  | Add | BitOr | BitXor => list_init t 0
  | Multiply => list_init t 1
  | BitAnd => list_init t (-1)
  | Min => Some {| tty := t; tz := ihigh t - 1 |}
  | Max => Some {| tty := t; tz := ilow t |}
  end.

(** conversion/allow_promotion.hpp:31-35 *)
Definition promoted (o : bop) (x y : tval) : outcome tval :=
  let ct := cond_type (tty x) (tty y) in evaluate o (as_ ct x) (as_ ct y).

(** operation/operation/operation_base.hpp:67-78, 87-92: the first or the second argument is the
    target; the result is assigned to it. *)
Definition into_first (o : bop) (x y : tval) : outcome tval := do r <- evaluate o x y; Ok (as_ (tty x) r).
Definition into_second (o : bop) (x y : tval) : outcome tval := do r <- evaluate o x y; Ok (as_ (tty y) r).

(** core/common.hpp:21-35: arguments of the same type; the value common to all of them. *)
Fixpoint common_value (x : Z) (xs : list Z) : outcome Z :=
  match xs with
  | nil => Ok x
  | y :: xs => if x =? y then common_value x xs else AssertFail
  end.
