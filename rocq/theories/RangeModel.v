(** Model of parts of include/actl/range. *)
From Coq Require Import ZArith List Bool.
From Verif Require Import Outcome IntTypes.
Import ListNotations.
Local Open Scope Z_scope.

(** ** Integer ranges *)

(** range/iterator/integer_iterator.hpp:20-71: value and step.  The value type
    [t] has at least the rank of int, the step is an int ([constant<1>],
    [constant<-1>] or a run-time int), so it is converted to [t] in mixed
    arithmetic. *)
Record iiter := { ivalue : Z; istep : Z }.

(** integer_iterator.hpp:53-58 with offset = 1 (operator++ of
    random_access_iterator_interface.hpp:32-34). *)
Definition iiter_next (t : ity) (i : iiter) : outcome iiter :=
  do v <- iarith t (ivalue i + wrap t (istep i));
  Ok {| ivalue := v; istep := istep i |}.

(** integer_iterator.hpp:61-70.  [Z.quot]/[Z.rem] are C++ division.
    Division by zero is excluded by the callers ([step != 0]). *)
Definition iiter_diff (t : ity) (l r : iiter) : outcome Z :=
  assert_then (istep l =? istep r)
    (do d <- iarith t (ivalue l - ivalue r);
     assert_then (Z.rem d (wrap t (istep l)) =? 0)
       (iarith t (Z.quot d (wrap t (istep l))))).

(** A range is a pair of iterators (iterator_range.hpp:19-40). *)
Definition irange_t : Type := iiter * iiter.

(** irange.hpp:20-25 *)
Definition irange (first last : Z) : irange_t :=
  let b := {| ivalue := first; istep := 1 |} in
  if first >=? last then (b, b) else (b, {| ivalue := last; istep := 1 |}).

(** irange.hpp:35-40 *)
Definition drange (t : ity) (first last : Z) : outcome irange_t :=
  let b := {| ivalue := first; istep := -1 |} in
  if first <? last then Ok (b, b)
  else do e <- iarith t (last - 1); Ok (b, {| ivalue := e; istep := -1 |}).

Definition b2z (b : bool) : Z := if b then 1 else 0.

(** irange.hpp:51-60 *)
Definition irange_step (t : ity) (first last step : Z) : outcome irange_t :=
  assert_then (negb (step =? 0))
    (let b := {| ivalue := first; istep := step |} in
     if (if 0 <? step then first >=? last else first <? last) then Ok (b, b)
     else
       do d0 <- iarith t (last - first);
       do d1 <- iarith t (d0 - b2z (0 <? step));
       do q <- iarith t (Z.quot d1 (wrap t step));
       do n <- iarith t (q + 1);
       do m <- iarith t (wrap t step * n);
       do e <- iarith t (first + m);
       Ok (b, {| ivalue := e; istep := step |})).

(** [for (auto x : range)]: iterators are compared by value
    (integer_iterator.hpp:47-51). *)
Fixpoint iterate (fuel : nat) (t : ity) (i e : iiter) : outcome (list Z) :=
  if ivalue i =? ivalue e then Ok []
  else match fuel with
       | O => NoFuel
       | S fuel =>
           do j <- iiter_next t i;
           do rest <- iterate fuel t j e;
           Ok (ivalue i :: rest)
       end.

(** random_access_range_interface.hpp:26-28, before to_unsigned. *)
Definition irange_size (t : ity) (r : irange_t) : outcome Z := iiter_diff t (snd r) (fst r).

(** ** Cyclic iterator *)

(** range/iterator/cyclic_iterator.hpp:17-80; the base iterator is a position
    in a range of [n] elements, [n] itself being the end. *)
Definition cyc_make (n p : Z) : outcome Z :=
  assert_then (0 <? n) (Ok (if p =? n then 0 else p)).       (* 26-32 *)
Definition cyc_next (n p : Z) : Z :=                         (* 34-39 *)
  if p + 1 =? n then 0 else p + 1.
Definition cyc_prev (n p : Z) : Z :=                         (* 41-46 *)
  (if p =? 0 then n else p) - 1.
Definition cyc_add (n p d : Z) : outcome Z :=                (* 48-58 *)
  assert_then (Z.abs d <? n)
    (if 0 <? d then Ok (p + (d - (if d >=? n - p then n else 0)))
     else Ok (p + (d + (if - d >? p then n else 0)))).
Definition cyc_diff (n l r : Z) : Z :=                       (* 60-68 *)
  let dist := l - r in if 0 <=? dist then dist else dist + n.

(** ** Filtered range *)

Section Filtered.
  Context {A : Type}.
  Variable pred : A -> bool.

  (** range/filtered_range.hpp:63-67; positions in the underlying list,
      [length xs] is the end.  Dereferencing past the end is UB. *)
  Fixpoint find_next (fuel : nat) (xs : list A) (p : nat) : outcome nat :=
    if Nat.eqb p (length xs) then Ok p
    else match nth_error xs p with
         | None => UB
         | Some a =>
             if pred a then Ok p
             else match fuel with
                  | O => NoFuel
                  | S fuel => find_next fuel xs (S p)
                  end
         end.

  Definition fr_find (xs : list A) (p : nat) := find_next (length xs) xs p.

  (** filtered_range.hpp:77-83, 41-47 *)
  Definition fr_begin (xs : list A) : outcome nat := fr_find xs 0.
  Definition fr_end (xs : list A) : outcome nat := fr_find xs (length xs).

  (** filtered_range.hpp:49-53; incrementing the end is UB. *)
  Definition fr_next (xs : list A) (p : nat) : outcome nat :=
    if Nat.leb (length xs) p then UB else fr_find xs (S p).

  (** filtered_range.hpp:55-60; decrementing the begin is UB. *)
  Fixpoint fr_prev (fuel : nat) (xs : list A) (p : nat) : outcome nat :=
    match p with
    | O => UB
    | S q =>
        match nth_error xs q with
        | None => UB
        | Some a =>
            if pred a then Ok q
            else match fuel with
                 | O => NoFuel
                 | S fuel => fr_prev fuel xs q
                 end
        end
    end.

  Definition deref (xs : list A) (p : nat) : outcome A :=
    match nth_error xs p with Some a => Ok a | None => UB end.

  (** [for (it = begin; it != end; ++it) out.push_back( *it )] *)
  (* A client of filtered_range.hpp:41-83. *)
  Fixpoint fr_forward (fuel : nat) (xs : list A) (p e : nat) : outcome (list A) :=
    if Nat.eqb p e then Ok []
    else match fuel with
         | O => NoFuel
         | S fuel =>
             do a <- deref xs p;
             do q <- fr_next xs p;
             do rest <- fr_forward fuel xs q e;
             Ok (a :: rest)
         end.

  (** [for (it = end; it != begin;) out.push_back( * --it )] *)
  (* A client of filtered_range.hpp:41-83. *)
  Fixpoint fr_backward (fuel : nat) (xs : list A) (p b : nat) : outcome (list A) :=
    if Nat.eqb p b then Ok []
    else match fuel with
         | O => NoFuel
         | S fuel =>
             do q <- fr_prev (length xs) xs p;
             do a <- deref xs q;
             do rest <- fr_backward fuel xs q b;
             Ok (a :: rest)
         end.

  Definition fr_list (xs : list A) : outcome (list A) :=
    do b <- fr_begin xs; do e <- fr_end xs; fr_forward (length xs) xs b e.
  Definition fr_rlist (xs : list A) : outcome (list A) :=
    do b <- fr_begin xs; do e <- fr_end xs; fr_backward (length xs) xs e b.
End Filtered.

(** ** Comparison of ranges *)

(** range/operation/lexicographical_compare_range.hpp:21-34; a range that is
    not exhausted is a non-empty list. *)
Fixpoint lex_compare_range {A B} (op : A -> B -> Z) (l : list A) (r : list B) : Z :=
  match l, r with
  | x :: l', y :: r' =>
      let v := op x y in if v =? 0 then lex_compare_range op l' r' else v
  | _, _ =>
      b2z (match r with [] => false | _ => true end)
      - b2z (match l with [] => false | _ => true end)
  end.

(** lexicographical_compare_range.hpp:46-49 *)
Definition is_less_range {A B} (op : A -> B -> Z) l r : bool := lex_compare_range op l r <? 0.

(** range/operation/is_equal_range.hpp:19-28 (four-iterator std::equal). *)
Fixpoint is_equal_range {A B} (eq : A -> B -> bool) (l : list A) (r : list B) : bool :=
  match l, r with
  | [], [] => true
  | x :: l, y :: r => eq x y && is_equal_range eq l r
  | _, _ => false
  end.

(** ** Span *)

(** range/span.hpp:18-74: offset of the data pointer in the underlying array,
    and size.  The array has [n] elements; forming a pointer outside of
    [0, n] is UB. *)
Record span := { sp_data : Z; sp_size : Z }.

Definition ptr_at (n p : Z) : outcome Z := if (0 <=? p) && (p <=? n) then Ok p else UB.

Definition size_wrap (z : Z) : Z := z mod 2 ^ 64.

(** span.hpp:45-48 *)
Definition sp_first (s : span) (k : Z) : outcome span :=
  assert_then (k <=? sp_size s) (Ok {| sp_data := sp_data s; sp_size := k |}).

(** span.hpp:50-53 *)
Definition sp_last (n : Z) (s : span) (k : Z) : outcome span :=
  assert_then (k <=? sp_size s)
    (do p <- ptr_at n (sp_data s + sp_size s - k); Ok {| sp_data := p; sp_size := k |}).

(** span.hpp:55-58; offset + count is a size_t addition. *)
Definition sp_subspan (n : Z) (s : span) (offset count : Z) : outcome span :=
  assert_then (size_wrap (offset + count) <=? sp_size s)
    (do p <- ptr_at n (sp_data s + offset); Ok {| sp_data := p; sp_size := count |}).

(** span.hpp:60-62 *)
Definition sp_subspan1 (n : Z) (s : span) (offset : Z) : outcome span :=
  sp_subspan n s offset (size_wrap (sp_size s - offset)).

(** ** Copy *)

(** range/operation/copy.hpp:16-26: the target iterator is a position in the
    array [t]; writing outside of it is UB. *)
Fixpoint copy_to {A} (t : list A) (p : nat) (src : list A) : outcome (list A * nat) :=
  match src with
  | [] => Ok (t, p)
  | x :: src =>
      if Nat.ltb p (length t)
      then copy_to (firstn p t ++ x :: skipn (S p) t) (S p) src
      else UB
  end.

(** copy.hpp:28-36 *)
Definition copy_range {A} (t src : list A) : outcome (list A) :=
  assert_then (Nat.eqb (length t) (length src))
    (do p <- copy_to t 0 src; Ok (fst p)).
