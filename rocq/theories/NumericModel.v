(** Model of include/actl/numeric: powers, modular ring, random engines,
    hashing, bit helpers, comparisons and constant literals. *)
From Coq Require Import ZArith List Bool QArith Qabs.
From Verif Require Import Outcome.
Import ListNotations.
Local Open Scope Z_scope.

(** ** numeric/algorithm/binary_pow.hpp *)

Section BinaryPow.
  Variable T : Type.
  Variable mul : T -> T -> T.
  (** [T{1}], binary_pow.hpp:16 *)
  Variable one : T.

  (** The loop and the final return, binary_pow.hpp:19-24.  [cnt] is a ghost
      counter of the multiplications executed so far. *)
  Fixpoint bp_loop (fuel : nat) (res value : T) (power : Z) (cnt : Z)
    : outcome (T * Z) :=
    if 1 <? power then
      match fuel with
      | O => NoFuel
      | S fuel =>
          let odd := Z.land power 1 =? 1 in
          let res' := if odd then mul res value else res in
          let cnt' := if odd then cnt + 1 else cnt in
          bp_loop fuel res' (mul value value) (Z.shiftr power 1) (cnt' + 1)
      end
    else Ok (mul res value, cnt + 1).

  (** binary_pow.hpp:13-25.  The loop halves [power], so [Z.log2] fuel is
      enough; out-of-fuel is a distinct outcome. *)
  Definition binary_pow_cnt (value : T) (power : Z) : outcome (T * Z) :=
    assert_then (0 <=? power)
      (if power =? 0 then Ok (one, 0)
       else bp_loop (Z.to_nat (Z.log2 power)) one value power 0).

  Definition binary_pow (value : T) (power : Z) : outcome T :=
    omap fst (binary_pow_cnt value power).
End BinaryPow.

(** ** numeric/modular/ring.hpp *)

(** Unsigned words of [w] bits; every assignment to a Z& or Z variable of the
    C++ template (called Z there) wraps. *)
(* The language: unsigned arithmetic at numeric/modular/ring.hpp:37-40 and below. *)
Definition wrap (w x : Z) : Z := x mod 2 ^ w.

Section Ring.
  (** Width of [value_type] and the stored modulus [ring.mod()].  [md = 0] is
      what static_quotient_ring stores for Mod = 2^32 (ring.hpp:37-40). *)
  Variable w : Z.
  (** [R::is_static], ring.hpp:17 *)
  Variable is_static : bool.
  Variable md : Z.

  (** ring.hpp:53-61, the integral branch. *)
  Definition mod_add (x y : Z) : Z :=
    let z := wrap w (md - y) in
    if x <? z then wrap w (x + y) else wrap w (x - z).

  (** ring.hpp:63-70, the integral branch. *)
  Definition mod_sub (x y : Z) : Z :=
    if x <? y then wrap w (x + wrap w (md - y)) else wrap w (x - y).

  (** ring.hpp:72-82.  Loop of mod_mul_binary; [y] halves each time. *)
  Fixpoint mul_loop (fuel : nat) (r x y : Z) : outcome Z :=
    match fuel with
    | O => NoFuel
    | S fuel =>
        let r' := if Z.land y 1 =? 1 then mod_add r x else r in
        let y' := y / 2 in
        if y' =? 0 then Ok r' else mul_loop fuel r' (mod_add x x) y'
    end.

  Definition mod_mul_binary (x y : Z) : outcome Z :=
    mul_loop (S (Z.to_nat w)) 0 x y.

  (** ring.hpp:84-95.  [sizeof(Z) < sizeof(uint64_t)] is [w < 64].  Division
      by zero is undefined behaviour. *)
  Definition mod_mul (x y : Z) : outcome Z :=
    if (is_static && (md =? 0))%bool then Ok (wrap w (x * y))
    else if w <? 64 then
      if md =? 0 then UB else Ok (wrap w (wrap 64 (x * y) mod md))
    else mod_mul_binary x y.

  (** ring.hpp:100-104.  Loop of mod_div. *)
  Fixpoint div_loop (fuel : nat) (p a q b : Z) : outcome (Z * Z) :=
    if q =? 0 then Ok (p, a)
    else match fuel with
         | O => NoFuel
         | S fuel =>
             do t <- mod_mul (p / q) b;
             let a' := mod_sub a t in
             (* swap(a, b); p %= q; swap(p, q) *)
             div_loop fuel q b (p mod q) a'
         end.

  (** ring.hpp:97-108.  [x % 0] is undefined behaviour.  The product [p * q]
      halves in every iteration but the first, hence the fuel. *)
  Definition mod_div (x y : Z) : outcome Z :=
    do pa <- div_loop (2 * Z.to_nat w + 2) (wrap w (md - y)) (wrap w (md - 1)) y 1;
    let (p, a) := (pa : Z * Z) in
    if p =? 0 then UB
    else if negb (x mod p =? 0) then Throw
    else mod_mul a (x / p).

  (** ring.hpp:160-164.  Unary minus. *)
  Definition mod_neg (x : Z) : Z := mod_sub 0 x.

  (** ring.hpp:126-128.  The constructor stores the given value unreduced. *)
  Definition ring_element_of (v : Z) : Z := wrap w v.
End Ring.

(** ring.hpp:37-40.  Word width and stored modulus of static_quotient_ring. *)
Definition static_ring_width (Mod : Z) : Z :=
  if 2 ^ 32 <? Mod then 64 else 32.
Definition static_ring_mod (Mod : Z) : Z := wrap (static_ring_width Mod) Mod.

(** ** numeric/random *)

(** splitmix64.hpp:19-24 *)
Definition splitmix_next (x : Z) : Z :=
  let x := wrap 64 (x + 0x9e3779b97f4a7c15) in
  let x := wrap 64 (Z.lxor x (Z.shiftr x 30) * 0xbf58476d1ce4e5b9) in
  let x := wrap 64 (Z.lxor x (Z.shiftr x 27) * 0x94d049bb133111eb) in
  Z.lxor x (Z.shiftr x 31).

(** splitmix64.hpp:28-30: [m_state = next(m_state)], returning the new state.
    The state after [n] calls. *)
Fixpoint splitmix_run (n : nat) (state : Z) : Z :=
  match n with
  | O => state
  | S n => splitmix_run n (splitmix_next state)
  end.

(** xoroshiro128cplus.hpp:18-28.  Returns the new state and the output. *)
Definition xoroshiro_step (st : Z * Z) : (Z * Z) * Z :=
  let (x, y) := st in
  let r := wrap 64 (x + y) in
  let y := Z.lxor y x in
  let x := Z.lxor (Z.lxor (Z.lxor (wrap 64 (Z.shiftl x 55)) (Z.shiftr x 9)) y)
                  (wrap 64 (Z.shiftl y 14)) in
  let y := Z.lxor (wrap 64 (Z.shiftl y 36)) (Z.shiftr y 28) in
  ((x, y), wrap 64 (r + (if wrap 64 (x + y) <? y then 1 else 0))).

Definition xoroshiro_next (st : Z * Z) : Z * Z := fst (xoroshiro_step st).

Fixpoint xoroshiro_run (n : nat) (st : Z * Z) : Z * Z :=
  match n with
  | O => st
  | S n => xoroshiro_run n (xoroshiro_next st)
  end.

(** xoroshiro128cplus.hpp:39 *)
Definition xoroshiro_init : Z * Z := (0x2b2226c33510fa6, 0xf3ce5935970031d3).

(** ** numeric/hash.hpp *)

Section Hash.
  (** randomized_hash::seed, hash.hpp:25,32-34: taken from the clock, so any
      64-bit value. *)
  Variable seed : Z.

  (** hash.hpp:27-29 *)
  Definition hash_compute (x : Z) : Z := splitmix_next (wrap 64 (x + seed)).

  (** hash.hpp:36-47.  The [size] little-endian bytes of the value are copied
      into the high bytes of a zero 64-bit word. *)
  Fixpoint bytes_value (bytes : list Z) : Z :=
    match bytes with
    | [] => 0
    | b :: bs => b + 256 * bytes_value bs
    end.

  Definition hash_value_bytes (bytes : list Z) : Z :=
    hash_compute
      (bytes_value (List.repeat 0 (8 - List.length bytes) ++ bytes)).

  (** hash.hpp:60-63, given the hash [h] of the element. *)
  Definition hash_combine (s h : Z) : Z :=
    Z.lxor s (wrap 64 (wrap 64 (Z.shiftl s 6) + Z.shiftr s 2 + 0x9e3779b9 + h)).

  (** hash.hpp:65-71: hash of several arguments. *)
  Definition hash_tuple (h : Z) (hs : list Z) : Z := fold_left hash_combine hs h.

  (** hash.hpp:73-78: hash of a range. *)
  Definition hash_range (hs : list Z) : Z := fold_left hash_combine hs 0.
End Hash.

(** ** numeric/bit/operation.hpp, on unsigned words of [w] bits *)

Section Bits.
  Variable w : Z.
  (** operation.hpp:14-18; shifting by the width or more is undefined. *)
  Definition bit (i : Z) : outcome Z :=
    assert_then (0 <=? i) (if i <? w then Ok (Z.shiftl 1 i) else UB).
  (** operation.hpp:20-24 *)
  Definition has_bit (x i : Z) : outcome bool :=
    assert_then (0 <=? i)
      (if i <? w then Ok (negb (Z.land (Z.shiftr x i) 1 =? 0)) else UB).
  (** operation.hpp:26-29 *)
  Definition has_bits (x bits : Z) : bool := Z.land x bits =? bits.
  (** [~x] on a [w]-bit unsigned word *)
  (* The language, at operation.hpp:31-34. *)
  Definition wnot (x : Z) : Z := 2 ^ w - 1 - x.
  (** operation.hpp:31-34 *)
  Definition clear_bits (x bits : Z) : Z := Z.land x (wnot bits).
  (** operation.hpp:36-39 *)
  Definition clear_bit (x i : Z) : outcome Z := omap (clear_bits x) (bit i).
  (** operation.hpp:41-44 (returns the new value; [x] itself is unchanged) *)
  Definition set_bits (x mask bits : Z) : Z :=
    Z.lor (clear_bits x mask) (Z.land bits mask).
End Bits.

(** ** numeric/comparison, over an arbitrary [<] *)

Section Comparison.
  Variable T : Type.
  (** is_less, ordering.hpp:15-37 *)
  Variable less : T -> T -> bool.
  (** is_greater = r_ < l_, ordering.hpp:45-51 *)
  Definition is_greater (l r : T) : bool := less r l.
  (** ordering.hpp:59 *)
  Definition is_less_or_equal (l r : T) : bool := negb (is_greater l r).
  (** ordering.hpp:67 *)
  Definition is_greater_or_equal (l r : T) : bool := negb (less l r).
  (** compare3way.hpp:22 *)
  Definition compare3way (l r : T) : Z :=
    Z.b2z (is_greater l r) - Z.b2z (less l r).
  (** min_max.hpp:22-24 *)
  Definition cmp_min (l r : T) : T := if less r l then r else l.
  (** min_max.hpp:42-44 *)
  Definition cmp_max (l r : T) : T := if less l r then r else l.
End Comparison.

(** sgn.hpp:26 on integers *)
Definition sgn (x : Z) : Z := compare3way Z Z.ltb x 0.

(** absolute_error.hpp:23-31, in exact rational arithmetic (floating point
    rounding of the subtraction is not modelled). *)
Definition ae_equal (eps l r : Q) : bool := Qle_bool (Qabs (l - r)) eps.
Definition ae_less (eps l r : Q) : bool := negb (Qle_bool (r - l) eps).
(** is_greater is [r_ < l_] under the same policy (ordering.hpp:48). *)
Definition ae_greater (eps l r : Q) : bool := ae_less eps r l.

(** ** numeric/constant_literals.hpp *)

(** Characters are their ASCII codes. *)
(** constant_literals.hpp:17-25; [None]: no value is returned, a compile-time
    error. *)
Definition lit_digit (c : Z) : option Z :=
  if (97 <=? c) && (c <=? 102) then Some (c - 97 + 10)
  else if (65 <=? c) && (c <=? 70) then Some (c - 65 + 10)
  else if (48 <=? c) && (c <=? 57) then Some (c - 48)
  else None.

(** constant_literals.hpp:27-40: digits with the separators [']
    (code 39) dropped. *)
Fixpoint filter_digits (cs : list Z) : option (list Z) :=
  match cs with
  | [] => Some []
  | c :: cs =>
      if c =? 39 then filter_digits cs
      else match lit_digit c, filter_digits cs with
           | Some d, Some ds => Some (d :: ds)
           | _, _ => None
           end
  end.

(** constant_literals.hpp:49-65: base and remaining characters. *)
Definition lit_base (cs : list Z) : Z * list Z :=
  match cs with
  | 48 :: c :: rest =>
      if (c =? 88) || (c =? 120) then (16, rest)
      else if (c =? 98) || (c =? 66) then (2, rest)
      else (8, c :: rest)
  | 48 :: rest => (8, rest)
  | _ => (10, cs)
  end.

(** constant_literals.hpp:72-85; [None] is a failed static_assert. *)
Fixpoint lit_fold (umax base x : Z) (ds : list Z) : option Z :=
  match ds with
  | [] => Some x
  | d :: ds =>
      if (0 <=? d) && (d <? base) then
        if x <=? (umax - d) / base then lit_fold umax base (d + base * x) ds
        else None
      else None
  end.

(** constant_literals.hpp:87-88.  [umax] is the maximum of the unsigned
    version, [tmax] of the type itself; braces reject narrowing. *)
Definition str_to_constant (umax tmax : Z) (cs : list Z) : option Z :=
  let (base, rest) := lit_base cs in
  match filter_digits rest with
  | None => None
  | Some ds =>
      match lit_fold umax base 0 ds with
      | Some v => if v <=? tmax then Some v else None
      | None => None
      end
  end.
