(** Range overloads of standard algorithms (C142): include/actl/range/algorithm.hpp.
    Each function passes begin and end of its range to the standard algorithm of
    the same name, so a range is the list of its elements and an iterator a
    position in it; the standard algorithms themselves, which are not in /repo,
    are modelled as the loops of the usual implementation (bits/stl_algo.h).
    The comparison functions answer true or false and have no other effect. *)
From Coq Require Import List Bool PeanoNat.
From Verif Require Import Outcome ListLemmas.
Import ListNotations.

Section Alg.
  Context {A : Type}.

  (** count, 22-25 *)
  (* range/algorithm.hpp:22-25 *)
  Fixpoint count_loop (eqb : A -> A -> bool) (l : list A) (v : A) (n : nat) : nat :=
    match l with
    | [] => n
    | x :: l => count_loop eqb l v (if eqb x v then S n else n)
    end.
  Definition alg_count (eqb : A -> A -> bool) (l : list A) (v : A) : nat := count_loop eqb l v 0.

  (** mismatch, 27-34: the positions where the loop stops *)
  (* range/algorithm.hpp:27-34 *)
  Fixpoint alg_mismatch (eqb : A -> A -> bool) (l r : list A) (p : nat) : nat * nat :=
    match l, r with
    | x :: l, y :: r => if eqb x y then alg_mismatch eqb l r (S p) else (p, p)
    | _, _ => (p, p)
    end.

  (** unique, 46-54: the elements up to the returned iterator; [kept] is the
      last element kept *)
  (* range/algorithm.hpp:46-54 *)
  Fixpoint unique_loop (pred : A -> A -> bool) (kept : A) (l : list A) : list A :=
    match l with
    | [] => []
    | x :: l => if pred kept x then unique_loop pred kept l else x :: unique_loop pred x l
    end.
  Definition alg_unique (pred : A -> A -> bool) (l : list A) : list A :=
    match l with
    | [] => []
    | x :: l => x :: unique_loop pred x l
    end.

  (** lower_bound, 81-93; result: the position and the number of comparisons;
      [fuel] bounds the number of rounds. *)
  (* range/algorithm.hpp:81-93 *)
  Fixpoint lower_loop (lt : A -> A -> bool) (l : list A) (v : A) (fuel first len cmps : nat) : outcome (nat * nat) :=
    if len =? 0 then Ok (first, cmps)
    else match fuel with
    | O => NoFuel
    | S fuel =>
        let half := Nat.div2 len in
        match nth_error l (first + half) with
        | Some x =>
            if lt x v then lower_loop lt l v fuel (first + half + 1) (len - half - 1) (S cmps)
            else lower_loop lt l v fuel first half (S cmps)
        | None => UB
        end
    end.
  Definition alg_lower_bound (lt : A -> A -> bool) (l : list A) (v : A) : outcome (nat * nat) :=
    lower_loop lt l v (length l) 0 (length l) 0.
  (** upper_bound, 95-107 *)
  (* range/algorithm.hpp:95-107 *)
  Fixpoint upper_loop (lt : A -> A -> bool) (l : list A) (v : A) (fuel first len cmps : nat) : outcome (nat * nat) :=
    if len =? 0 then Ok (first, cmps)
    else match fuel with
    | O => NoFuel
    | S fuel =>
        let half := Nat.div2 len in
        match nth_error l (first + half) with
        | Some x =>
            if lt v x then upper_loop lt l v fuel first half (S cmps)
            else upper_loop lt l v fuel (first + half + 1) (len - half - 1) (S cmps)
        | None => UB
        end
    end.
  Definition alg_upper_bound (lt : A -> A -> bool) (l : list A) (v : A) : outcome (nat * nat) :=
    upper_loop lt l v (length l) 0 (length l) 0.

  (** merge, 109-130: what is written to the output; an element of the second
      range goes first only when it is less. *)
  (* range/algorithm.hpp:109-130 *)
  Fixpoint alg_merge (lt : A -> A -> bool) (l : list A) : list A -> list A :=
    match l with
    | [] => fun r => r
    | x :: l' =>
        fix merge_r (r : list A) : list A :=
          match r with
          | [] => x :: l'
          | y :: r' => if lt y x then y :: merge_r r' else x :: alg_merge lt l' r
          end
    end.

  (** min_element, 132-140, and max_element, 142-150; [p] is the position of
      the head of [l], [best] the position and the element chosen so far. *)
  (* range/algorithm.hpp:132-150 *)
  Fixpoint min_loop (lt : A -> A -> bool) (l : list A) (p : nat) (best : nat * A) : nat :=
    match l with
    | [] => fst best
    | x :: l => min_loop lt l (S p) (if lt x (snd best) then (p, x) else best)
    end.
  Definition alg_min_element (lt : A -> A -> bool) (l : list A) : nat :=
    match l with [] => 0 | x :: l => min_loop lt l 1 (0, x) end.
  Fixpoint max_loop (lt : A -> A -> bool) (l : list A) (p : nat) (best : nat * A) : nat :=
    match l with
    | [] => fst best
    | x :: l => max_loop lt l (S p) (if lt (snd best) x then (p, x) else best)
    end.
  Definition alg_max_element (lt : A -> A -> bool) (l : list A) : nat :=
    match l with [] => 0 | x :: l => max_loop lt l 1 (0, x) end.

  (** minmax_element, 152-163: two elements at a time, three comparisons per
      pair; the third component counts the comparisons. *)
  (* range/algorithm.hpp:152-163 *)
  Fixpoint minmax_loop (lt : A -> A -> bool) (l : list A) (p : nat) (mn mx : nat * A) (cmps : nat) : nat * nat * nat :=
    match l with
    | [] => (fst mn, fst mx, cmps)
    | [x] =>
        if lt x (snd mn) then (p, fst mx, S cmps)
        else if lt x (snd mx) then (fst mn, fst mx, S (S cmps))
        else (fst mn, p, S (S cmps))
    | x :: y :: l =>
        if lt y x then
          minmax_loop lt l (S (S p))
            (if lt y (snd mn) then (S p, y) else mn) (if lt x (snd mx) then mx else (p, x)) (3 + cmps)
        else
          minmax_loop lt l (S (S p))
            (if lt x (snd mn) then (p, x) else mn) (if lt y (snd mx) then mx else (S p, y)) (3 + cmps)
    end.
  Definition alg_minmax_element (lt : A -> A -> bool) (l : list A) : nat * nat * nat :=
    match l with
    | [] => (0, 0, 0)
    | [x] => (0, 0, 0)
    | x :: y :: l => if lt y x then minmax_loop lt l 2 (1, y) (0, x) 1 else minmax_loop lt l 2 (0, x) (1, y) 1
    end.

  (** lexicographical_compare, 165-177 *)
  (* range/algorithm.hpp:165-177 *)
  Fixpoint alg_lex (lt : A -> A -> bool) (l r : list A) : bool :=
    match l, r with
    | x :: l, y :: r => if lt x y then true else if lt y x then false else alg_lex lt l r
    | [], _ :: _ => true
    | _, [] => false
    end.

  (** next_permutation, 179-189.  while (!( *i < *--j)): the last element
      greater than the one at [i]. *)
  (* range/algorithm.hpp:179-189 *)
  Fixpoint np_last (lt : A -> A -> bool) (l : list A) (x : A) (j : nat) : outcome nat :=
    match j with
    | O => UB
    | S j =>
        match nth_error l j with
        | Some y => if lt x y then Ok j else np_last lt l x j
        | None => UB
        end
    end.
  (** The outer loop; [ii] is the position of the second of the two elements
      compared.  Result: the returned value and the range afterwards. *)
  (* range/algorithm.hpp:179-189 *)
  Fixpoint np_loop (lt : A -> A -> bool) (l : list A) (ii : nat) : outcome (bool * list A) :=
    match ii with
    | O => Ok (false, rev l)
    | S i =>
        match nth_error l i, nth_error l ii with
        | Some x, Some y =>
            if lt x y then
              do j <- np_last lt l x (length l);
              match nth_error l j with
              | Some z =>
                  let l' := list_set (list_set l i z) j x in
                  Ok (true, firstn ii l' ++ rev (skipn ii l'))
              | None => UB
              end
            else np_loop lt l i
        | _, _ => UB
        end
    end.
  Definition alg_next_permutation (lt : A -> A -> bool) (l : list A) : outcome (bool * list A) :=
    match l with
    | [] => Ok (false, [])
    | [x] => Ok (false, [x])
    | _ => np_loop lt l (length l - 1)
    end.
  (** The loop do { ... } while (next_permutation(range)): the arrangement in
      the [k]-th round, if there is one. *)
  (* use of range/algorithm.hpp:179-189 *)
  Fixpoint np_round (lt : A -> A -> bool) (k : nat) (l : list A) : outcome (option (list A)) :=
    match k with
    | O => Ok (Some l)
    | S k =>
        do (b, l) <- alg_next_permutation lt l;
        if (b : bool) then np_round lt k l else Ok None
    end.
End Alg.
