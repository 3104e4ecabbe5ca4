(** Model of is_equal_sequence (container/equality/{ranges,tuples,range_tuple}.hpp) for ranges and
    tuples of integers of any types. *)
From Coq Require Import ZArith List Bool.
From Verif Require Import Outcome IntTypes IterModel.
Import ListNotations.
Local Open Scope Z_scope.

(** A range has elements of one type, a tuple of any types. *)
(* The arguments of container/equality/*.hpp; the language: comparisons at ranges.hpp:22-25. *)
Inductive sequence := Range (t : ity) (xs : list Z) | Tup (xs : list tval).

(** == and != of C++ on integers of different types. *)
(* The language, used at ranges.hpp:22-25, tuples.hpp:16-32 and range_tuple.hpp:16-35. *)
Definition teq (x y : tval) : bool := tcmp Z.eqb x y.
Definition tne (x y : tval) : bool := tcmp (fun a b => negb (a =? b)) x y.
(** r[i]; UB outside of the range. *)
(* ranges.hpp:23, range_tuple.hpp:16-35 *)
Definition index (t : ity) (xs : list Z) (i : nat) : outcome tval :=
  match nth_error xs i with Some x => Ok {| tty := t; tz := x |} | None => UB end.
(** get<I>(l) *)
(* tuples.hpp:16-32 *)
Definition get (xs : list tval) (i : nat) : outcome tval :=
  match nth_error xs i with Some x => Ok x | None => UB end.

(** ranges.hpp:22-25: [for (i = 0; i != n; ++i)], k iterations are left. *)
Fixpoint ranges_loop (t : ity) (xs : list Z) (u : ity) (ys : list Z) (i k : nat) : outcome bool :=
  match k with
  | O => Ok true
  | S k =>
      do x <- index t xs i; do y <- index u ys i;
      if tne x y then Ok false else ranges_loop t xs u ys (S i) k
  end.
(** ranges.hpp:13-26 *)
Definition equal_ranges (t : ity) (xs : list Z) (u : ity) (ys : list Z) : outcome bool :=
  let n := length xs in
  if negb (Nat.eqb (length ys) n) then Ok false else ranges_loop t xs u ys 0 n.

(** A left fold of && over the comparisons of the elements 0 to n - 1 (the empty fold is true):
    the comparison i is evaluated only if all before it are true. *)
Fixpoint and_fold (cmp : nat -> outcome bool) (n : nat) : outcome bool :=
  match n with
  | O => Ok true
  | S n => do b <- and_fold cmp n; if b then cmp n else Ok false
  end.
(** tuples.hpp:16-32 *)
Definition equal_tuples (xs ys : list tval) : outcome bool :=
  if negb (Nat.eqb (length xs) (length ys)) then Ok false
  else and_fold (fun i => do x <- get xs i; do y <- get ys i; Ok (teq x y)) (length xs).
(** range_tuple.hpp:16-35 *)
Definition equal_tuple_range (xs : list tval) (u : ity) (ys : list Z) : outcome bool :=
  let n := length xs in
  if negb (Nat.eqb (length ys) n) then Ok false
  else and_fold (fun i => do x <- get xs i; do y <- index u ys i; Ok (teq x y)) n.
(** The choice of the overload; range_tuple.hpp:37-41 swaps the arguments. *)
Definition is_equal_sequence (l r : sequence) : outcome bool :=
  match l, r with
  | Range t xs, Range u ys => equal_ranges t xs u ys
  | Tup xs, Tup ys => equal_tuples xs ys
  | Tup xs, Range u ys => equal_tuple_range xs u ys
  | Range t xs, Tup ys => equal_tuple_range ys t xs
  end.
