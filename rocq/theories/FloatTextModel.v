(** Model of the text input of floating point numbers and booleans:
    io/format/text/parser/{float_unchecked,uint_unchecked,boolean,arithmetic}.hpp,
    io/core/{const_data_parser,parser_executor}.hpp.

    Characters are codes.  Finite floating point numbers are rationals and [rnd]
    is the rounding of the floating point operations and conversions, as in
    RealModel; overflow to infinity is not modelled. *)
From Coq Require Import ZArith List Bool QArith.
From Verif Require Import Outcome StringModel IntTextModel.
Import ListNotations.
Local Open Scope Z_scope.

(** ** Floating point numbers *)
(** uint_unchecked.hpp:22-36: value and number of characters; UInt has 64 bits. *)
Fixpoint unchecked_loop (base x : Z) (s : list Z) : Z * nat :=
  match s with
  | [] => (x, 0%nat)
  | c :: s =>
      let d := to_digit 64 (base <=? 10) c in               (* lines 26, 35 *)
      if negb (d <? base) then (x, 0%nat)
      else let (v, n) := unchecked_loop base ((x * base + d) mod 2 ^ 64) s in (v, S n)
  end.
(** float_unchecked.hpp:30-35 *)
Definition parse_int (base : Z) (max_length : nat) (s : list Z) : Z * nat :=
  unchecked_loop base 0 (if (length s <=? max_length)%nat then s else firstn max_length s).

Inductive fstate := FEmpty | FSign | FIntegral | FPoint.
(** float_unchecked.hpp:21-28 without the constants. *)
Record fparser := { f_st : fstate; f_neg : bool; f_x : Q; f_power : Q }.
Definition fparser_init : fparser := {| f_st := FEmpty; f_neg := false; f_x := 0; f_power := 1 |}.
(** Lines 38-45 *)
Definition fbase (base : Z) : Z := if base =? 0 then 10 else base.
Definition max_length (base : Z) : nat := Z.to_nat (digit_count 64 (2 ^ 64 - 1) base - 1).

Section Parse.
  Variable rnd : Q -> Q.
  Variable base : Z.
  Variable len : nat.
  (** binary_pow(base, length) converted to Float *)
  (* io/format/text/parser/float_unchecked.hpp:74, 82 *)
  Definition pow_float (n : nat) : Q := rnd (inject_Z (base ^ Z.of_nat n mod 2 ^ 64)).
  (** Lines 78-85; the result is the number of characters, x and power. *)
  Fixpoint point_loop (fuel : nat) (x power : Q) (s : list Z) : outcome (nat * (Q * Q)) :=
    match s with
    | [] => Ok (0%nat, (x, power))
    | _ =>
        match fuel with
        | O => NoFuel
        | S fuel =>
            let (p, n) := parse_int base len s in
            if (n =? 0)%nat then Ok (0%nat, (x, power))
            else
              let power := rnd (power / pow_float n)%Q in
              let x := rnd (x + rnd (rnd (inject_Z p) * power))%Q in
              do (m, xp) <- point_loop fuel x power (skipn n s);
              Ok ((n + m)%nat, xp)
        end
    end.
  (** Lines 64-76 and the fall through to 77; the result is the number of
      characters, the state, x and power. *)
  Fixpoint integral_loop (fuel : nat) (x power : Q) (s : list Z) : outcome (nat * (fstate * (Q * Q))) :=
    match s with
    | [] => Ok (0%nat, (FIntegral, (x, power)))
    | c :: rest =>
        match fuel with
        | O => NoFuel
        | S fuel =>
            let (p, n) := parse_int base len s in
            if (n =? 0)%nat then
              if c =? 46 then
                do (m, xp) <- point_loop fuel x power rest;
                Ok (S m, (FPoint, xp))
              else Ok (0%nat, (FIntegral, (x, power)))
            else
              do (m, r) <- integral_loop fuel (rnd (rnd (x * pow_float n) + rnd (inject_Z p)))%Q power (skipn n s);
              Ok ((n + m)%nat, r)
        end
    end.
  (** Lines 55-62 and the fall through to 63; [s] is the rest after [i] characters. *)
  Definition fparse_sign (p : fparser) (i : nat) (s : list Z) : outcome (nat * fparser) :=
    let (v, n) := parse_int base len s in
    if (n =? 0)%nat then Ok (i, p)
    else do (m, r) <- integral_loop (length s) (rnd (inject_Z v)) (f_power p) (skipn n s);
         Ok ((i + n + m)%nat, {| f_st := fst r; f_neg := f_neg p; f_x := fst (snd r); f_power := snd (snd r) |}).
  (** Lines 47-88 *)
  Definition fparse (p : fparser) (s : list Z) : outcome (nat * fparser) :=
    match f_st p with
    | FEmpty =>
        match s with
        | [] => UB
        | c :: _ =>
            let (n, neg) := sign_parse true (f_neg p) c in
            let p := {| f_st := FSign; f_neg := neg; f_x := f_x p; f_power := f_power p |} in
            match skipn n s with [] => Ok (n, p) | rest => fparse_sign p n rest end
        end
    | FSign => fparse_sign p 0 s
    | FIntegral =>
        do (m, r) <- integral_loop (length s) (f_x p) (f_power p) s;
        Ok (m, {| f_st := fst r; f_neg := f_neg p; f_x := fst (snd r); f_power := snd (snd r) |})
    | FPoint =>
        do (m, r) <- point_loop (length s) (f_x p) (f_power p) s;
        Ok (m, {| f_st := FPoint; f_neg := f_neg p; f_x := fst r; f_power := snd r |})
    end.
  (** parser_executor.hpp:14-34 *)
  Fixpoint fexec (p : fparser) (chunks : list (list Z)) : outcome (nat * fparser) :=
    match chunks with
    | [] => Ok (0%nat, p)
    | [] :: _ => Ok (0%nat, p)
    | s :: cs => do (n, p) <- fparse p s;
                 if (n =? length s)%nat then do (m, p) <- fexec p cs; Ok ((n + m)%nat, p) else Ok (n, p)
    end.
End Parse.
(** Lines 90-96 and sign.hpp:38-39 *)
Definition fready (p : fparser) : bool := match f_st p with FEmpty | FSign => false | _ => true end.
Definition fvalue (p : fparser) : Q := if f_neg p then (- f_x p)%Q else f_x p.
(** parser/arithmetic.hpp:29-32: consumed characters and the value if there is one. *)
Definition float_read (rnd : Q -> Q) (base : Z) (chunks : list (list Z)) : outcome (nat * option Q) :=
  do (n, p) <- fexec rnd (fbase base) (max_length (fbase base)) fparser_init chunks;
  Ok (n, if fready p then Some (fvalue p) else None).

(** ** Booleans *)
(** arithmetic/boolean.hpp:14-15 *)
Definition true_s : list Z := [116; 114; 117; 101].
Definition false_s : list Z := [102; 97; 108; 115; 101].
(** std::mismatch of two ranges: the length of the common prefix. *)
(* The standard library (C++20). *)
Fixpoint mismatch (a b : list Z) : nat :=
  match a, b with x :: a, y :: b => if x =? y then S (mismatch a b) else 0%nat | _, _ => 0%nat end.
(** const_data_parser.hpp:17-22 *)
Definition data_parse (pending s : list Z) : nat * list Z := let n := mismatch pending s in (n, skipn n pending).
(** parser/boolean.hpp:14-19; [q_empty]: the state is empty. *)
Record qparser := { q_x : bool; q_empty : bool; q_pending : list Z }.
Definition qparser_init : qparser := {| q_x := false; q_empty := true; q_pending := [] |}.
(** parser/boolean.hpp:24-40 *)
Definition qparse (alpha : bool) (p : qparser) (s : list Z) : outcome (nat * qparser) :=
  let suffix p := let (n, r) := data_parse (q_pending p) s in Ok (n, {| q_x := q_x p; q_empty := q_empty p; q_pending := r |}) in
  if q_empty p then
    match s with
    | [] => UB
    | c :: _ =>
        if alpha then
          let x := c =? 116 in
          suffix {| q_x := x; q_empty := false; q_pending := if x then true_s else false_s |}
        else
          let x := c =? 49 in
          if x || (c =? 48) then Ok (1%nat, {| q_x := x; q_empty := false; q_pending := q_pending p |})
          else Ok (0%nat, {| q_x := x; q_empty := true; q_pending := q_pending p |})
    end
  else suffix p.
(** parser_executor.hpp:14-34 *)
Fixpoint qexec (alpha : bool) (p : qparser) (chunks : list (list Z)) : outcome (nat * qparser) :=
  match chunks with
  | [] => Ok (0%nat, p)
  | [] :: _ => Ok (0%nat, p)
  | s :: cs => do (n, p) <- qparse alpha p s;
               if (n =? length s)%nat then do (m, p) <- qexec alpha p cs; Ok ((n + m)%nat, p) else Ok (n, p)
  end.
(** parser/boolean.hpp:42-48, parser/arithmetic.hpp:19-21 *)
Definition qready (p : qparser) : bool := match q_pending p with [] => negb (q_empty p) | _ => false end.
Definition bool_read (alpha : bool) (chunks : list (list Z)) : outcome (nat * option bool) :=
  do (n, p) <- qexec alpha qparser_init chunks;
  Ok (n, if qready p then Some (q_x p) else None).
(** arithmetic/boolean.hpp:16-28 *)
Definition bool_encode (alpha x : bool) : list Z :=
  if alpha then (if x then true_s else false_s) else [if x then 49 else 48].
