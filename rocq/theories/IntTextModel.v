(** Model of integer text output and input:
    io/format/text/arithmetic/{integer_write,detail/uitoa,detail/digit_count}.hpp,
    io/format/text/parser/{integral,sign,base,uint_simple,digit}.hpp,
    io/core/parser_executor.hpp.
    Characters are codes; both conventions for char are allowed, so codes are in
    [-128, 256).  [w] is the width of the integer type, [sg] its signedness. *)
From Coq Require Import ZArith List Bool.
From Verif Require Import Outcome StringModel IntTypes.
Import ListNotations.
Local Open Scope Z_scope.

(** settings/base.hpp, settings/flags.hpp: the settings used by integers. *)
(* settings/base.hpp:15-35, settings/flags.hpp:17-26 *)
Record fmt := { f_base : Z; f_uppercase : bool; f_showbase : bool; f_showpos : bool }.

(** ** Output *)
(** digit_count.hpp:13-16 *)
Fixpoint digit_count (fuel : nat) (x base : Z) : Z :=
  match fuel with
  | O => 0
  | S fuel => if x =? 0 then 0 else 1 + digit_count fuel (x / base) base
  end.

(** A buffer of [cap] characters filled from its end; [*--last = c] before the
    start of the buffer is UB. *)
(* integer_write.hpp:59-66 *)
Definition putc (cap : Z) (c : Z) (buf : list Z) : outcome (list Z) :=
  if Z.of_nat (length buf) <? cap then Ok (c :: buf) else UB.

(** uitoa.hpp:21, 32-33: the character of a digit; [a] is 'a' or 'A'. *)
Definition digit_char (small : bool) (a d : Z) : Z :=
  if small then 48 + d else if d <? 10 then 48 + d else a + (d - 10).

(** The do-while loops 18-22 and 29-34; division by 0 is UB. *)
Fixpoint digits_loop (fuel : nat) (cap : Z) (small : bool) (a x base : Z) (buf : list Z) : outcome (list Z) :=
  match fuel with
  | O => NoFuel
  | S fuel =>
      if base =? 0 then UB
      else
        do buf <- putc cap (digit_char small a (x mod base)) buf;
        if x / base =? 0 then Ok buf else digits_loop fuel cap small a (x / base) base buf
  end.

(** uitoa.hpp:13-41 with ShowBase = true; fuel for 64-bit values. *)
Definition uitoa_fuel : nat := 64.
Definition uitoa (cap : Z) (f : fmt) (x base : Z) (buf : list Z) : outcome (list Z) :=
  if base <=? 10 then
    do buf <- digits_loop uitoa_fuel cap true 0 x base buf;
    if f_showbase f && negb (x =? 0) && (base =? 8) then putc cap 48 buf else Ok buf
  else
    let a := if f_uppercase f then 65 else 97 in
    do buf <- digits_loop uitoa_fuel cap false a x base buf;
    if f_showbase f && negb (x =? 0) && (base =? 16)
    then do buf <- putc cap (a - 97 + 120) buf; putc cap 48 buf
    else Ok buf.

(** integer_write.hpp:56-58: size of the buffer. *)
Definition int_buffer (w : Z) : Z := 1 + digit_count 64 (2 ^ w - 1) 2.

(** integer_write.hpp:49-75.  Not for types narrower than int: the negation is
    computed in int there and the call of uitoa does not compile. *)
Definition int_encode (w : Z) (sg : bool) (f : fmt) (x : Z) : outcome (list Z) :=
  let base := if f_base f =? 0 then 10 else f_base f in
  let cap := int_buffer w in
  let u := x mod 2 ^ w in                                 (* static_cast<UInt>(x) *)
  if sg then
    if x <? 0 then
      (* ~u + 1 in UInt *)
      do buf <- uitoa cap f ((2 ^ w - 1 - u + 1) mod 2 ^ w) base [];
      putc cap 45 buf
    else
      do buf <- uitoa cap f u base [];
      if f_showpos f then putc cap 43 buf else Ok buf
  else uitoa cap f u base [].

(** ** Input *)
(** digit.hpp:16-31; [kind]: true for digit, false for alnum. *)
Definition to_digit (w : Z) (small : bool) (c : Z) : Z :=
  if small then (c - 48) mod 2 ^ w
  else if is_digit c then (c - 48) mod 2 ^ w
  else if is_upper c then (c - 65 + 10) mod 2 ^ w
  else if is_lower c then (c - 97 + 10) mod 2 ^ w
  else 2 ^ w - 1.

Inductive ustate := UEmpty | UOk | UOverflow.
Inductive bstate := BEmpty | BZero | BDone.
Inductive istate := IEmpty | ISign | IValue.

(** uint_simple.hpp:14-22 *)
Record uparser := { u_st : ustate; u_x : Z; u_base : Z; u_max : Z }.
(** base.hpp:14-18 *)
Record bparser := { b_st : bstate; b_base : Z }.
(** integral.hpp:17-26 *)
Record iparser := { i_st : istate; i_neg : bool; i_base : bparser; i_inner : uparser }.

(** integral.hpp:26; members of the inner parser without initialiser are 0. *)
Definition iparser_init (base : Z) : iparser :=
  {| i_st := IEmpty; i_neg := false; i_base := {| b_st := BEmpty; b_base := base |};
     i_inner := {| u_st := UEmpty; u_x := 0; u_base := 0; u_max := 0 |} |}.

(** sign.hpp:18-24 *)
Definition sign_parse (sg : bool) (neg : bool) (c : Z) : nat * bool :=
  if sg && (c =? 45) then (1%nat, true) else ((if c =? 43 then 1%nat else 0%nat), neg).
(** sign.hpp:26-34 *)
Definition max_abs (w : Z) (sg neg : bool) : Z :=
  if sg then (2 ^ w - 1) / 2 + (if neg then 1 else 0) else 2 ^ w - 1.
(** sign.hpp:36-47: negate ? ~(Int)(x - 1) : (Int)x *)
Definition sign_value (w : Z) (sg neg : bool) (x : Z) : Z :=
  if sg then
    let t := {| bits := w; sgn := true |} in
    if neg then - wrap t (x - 1) - 1 else wrap t x
  else x.

(** base.hpp:20-44 *)
Definition set_base (b value : Z) : Z := if b =? 0 then value else b.
Definition parse_base (b c : Z) : bool * Z :=
  if (c =? 120) || (c =? 88) then (set_base b 16 =? 16, set_base b 16)
  else if (c =? 98) || (c =? 66) then (set_base b 2 =? 2, set_base b 2)
  else (false, set_base b 8).
(** base.hpp:49-67, the fall-through of the case zero. *)
Definition base_zero (i : nat) (b : Z) (s : list Z) : nat * bparser :=
  match s with
  | [] => (i, {| b_st := BZero; b_base := b |})
  | c :: _ => let (ok, b) := parse_base b c in
              if ok then (S i, {| b_st := BDone; b_base := b |})
              else (i, {| b_st := BZero; b_base := b |})
  end.
Definition base_parse (p : bparser) (s : list Z) : outcome (nat * bparser) :=
  match b_st p with
  | BEmpty => match s with
              | [] => UB
              | c :: s => if c =? 48 then Ok (base_zero 1 (b_base p) s)
                          else Ok (0%nat, {| b_st := BDone; b_base := set_base (b_base p) 10 |})
              end
  | BZero => Ok (base_zero 0 (b_base p) s)
  | BDone => Ok (0%nat, p)
  end.

(** uint_simple.hpp:36-49 *)
Fixpoint uint_loop (w : Z) (small : bool) (p : uparser) (s : list Z) : nat * uparser :=
  match s with
  | [] => (0%nat, p)
  | c :: s =>
      let d := to_digit w small c in
      if negb (d <? u_base p) then (0%nat, p)
      else
        let p :=
          if (u_max p / u_base p <? u_x p)
             || ((u_max p / u_base p =? u_x p) && (u_max p mod u_base p <? d))
          then {| u_st := UOverflow; u_x := u_max p; u_base := u_base p; u_max := u_max p |}
          else {| u_st := u_st p; u_x := (u_x p * u_base p + d) mod 2 ^ w; u_base := u_base p; u_max := u_max p |} in
        let (n, p) := uint_loop w small p s in (S n, p)
  end.
(** uint_simple.hpp:24-54 *)
Definition uint_parse (w : Z) (p : uparser) (s : list Z) : outcome (nat * uparser) :=
  let small := u_base p <=? 10 in
  match u_st p with
  | UEmpty =>
      match s with
      | [] => UB
      | c :: s =>
          let x := to_digit w small c in
          if x <? u_base p
          then let (n, p) := uint_loop w small {| u_st := UOk; u_x := x; u_base := u_base p; u_max := u_max p |} s in
               Ok (S n, p)
          else Ok (0%nat, {| u_st := UEmpty; u_x := x; u_base := u_base p; u_max := u_max p |})
      end
  | _ => Ok (uint_loop w small p s)
  end.

(** integral.hpp:43-44 *)
Definition parse_value (w : Z) (p : iparser) (i : nat) (s : list Z) : outcome (nat * iparser) :=
  do (n, u) <- uint_parse w (i_inner p) s;
  Ok ((i + n)%nat, {| i_st := i_st p; i_neg := i_neg p; i_base := i_base p; i_inner := u |}).
(** integral.hpp:36-44; [s] is the rest of the span after [i] characters. *)
Definition parse_sign (w : Z) (sg : bool) (p : iparser) (i : nat) (s : list Z) : outcome (nat * iparser) :=
  do (n, b) <- base_parse (i_base p) s;
  let rest := skipn n s in
  match rest, b_st b with
  | [], _ | _, BEmpty => Ok ((i + n)%nat, {| i_st := i_st p; i_neg := i_neg p; i_base := b; i_inner := i_inner p |})
  | _, _ =>
      parse_value w
        {| i_st := IValue; i_neg := i_neg p; i_base := b;
           i_inner := {| u_st := u_st (i_inner p); u_x := u_x (i_inner p);
                         u_base := b_base b; u_max := max_abs w sg (i_neg p) |} |} (i + n) rest
  end.
(** integral.hpp:28-47 *)
Definition int_parse (w : Z) (sg : bool) (p : iparser) (s : list Z) : outcome (nat * iparser) :=
  match i_st p with
  | IEmpty =>
      match s with
      | [] => UB
      | c :: _ =>
          let (n, neg) := sign_parse sg (i_neg p) c in
          let p := {| i_st := ISign; i_neg := neg; i_base := i_base p; i_inner := i_inner p |} in
          match skipn n s with
          | [] => Ok (n, p)
          | rest => parse_sign w sg p n rest
          end
      end
  | ISign => parse_sign w sg p 0 s
  | IValue => parse_value w p 0 s
  end.
(** integral.hpp:49-55 *)
Definition int_ready (p : iparser) : bool :=
  match u_st (i_inner p) with
  | UOk => true
  | UEmpty => match b_st (i_base p) with BZero => true | _ => false end
  | UOverflow => false
  end.
Definition int_value (w : Z) (sg : bool) (p : iparser) : Z := sign_value w sg (i_neg p) (u_x (i_inner p)).

(** parser_executor.hpp:14-36: the input is the sequence of buffers seen by
    input_buffer(); an empty buffer ends the loop. Result: number of consumed
    characters and the value if ready. *)
Fixpoint exec (w : Z) (sg : bool) (p : iparser) (chunks : list (list Z)) : outcome (nat * iparser) :=
  match chunks with
  | [] => Ok (0%nat, p)
  | s :: cs =>
      match s with
      | [] => Ok (0%nat, p)
      | _ => do (n, p) <- int_parse w sg p s;
             if Nat.eqb n (length s)
             then do (m, p) <- exec w sg p cs; Ok ((n + m)%nat, p)
             else Ok (n, p)
      end
  end.
Definition int_read (w : Z) (sg : bool) (base : Z) (chunks : list (list Z)) : outcome (nat * option Z) :=
  do (n, p) <- exec w sg (iparser_init base) chunks;
  Ok (n, if int_ready p then Some (int_value w sg p) else None).
