(** Model of iterators with their derived operations:
    range/iterator/interface/random_access_iterator_interface.hpp,
    range/iterator/integer_iterator.hpp with operands of any integer types,
    range/interface/{basic,bidirectional,random_access}_range_interface.hpp,
    range/iterator/linked_list_iterator.hpp. *)
From Coq Require Import ZArith List Bool.
From Verif Require Import Outcome IntTypes.
Import ListNotations.
Local Open Scope Z_scope.

(** ** Arithmetic of C++ on operands of different types *)
(** The usual arithmetic conversions of promoted types. *)
(* The language ([expr.arith.conv], C++20). *)
Definition common (a b : ity) : ity :=
  if Bool.eqb (sgn a) (sgn b) then if bits a <? bits b then b else a
  else let (u, s) := if sgn a then (b, a) else (a, b) in
       if bits s <=? bits u then u else s.
(** A typed value; expressions have promoted types. *)
(* The language ([expr], C++20). *)
Record tval := { tty : ity; tz : Z }.
Definition tconv (t : ity) (x : tval) : Z := wrap t (tz x).
Definition tbin (op : Z -> Z -> Z) (x y : tval) : outcome tval :=
  let t := common (promote (tty x)) (promote (tty y)) in
  do z <- iarith t (op (tconv t x) (tconv t y)); Ok {| tty := t; tz := z |}.
Definition tneg (x : tval) : outcome tval :=
  let t := promote (tty x) in
  do z <- iarith t (- tconv t x); Ok {| tty := t; tz := z |}.
(** Division by zero is UB. *)
(* The language ([expr.mul], C++20). *)
Definition tdiv (op : Z -> Z -> Z) (x y : tval) : outcome tval :=
  if tconv (common (promote (tty x)) (promote (tty y))) y =? 0 then UB else tbin op x y.
(** A constant or a step of type int. *)
(* The language (1 has type int). *)
Definition tint (z : Z) : tval := {| tty := int32; tz := z |}.

(** ** Integer iterators *)
(** integer_iterator.hpp:22-23; the value type and the step, of type int. *)
Record niter := { n_ty : ity; n_val : Z; n_step : Z }.
Definition n_get (i : niter) : tval := {| tty := n_ty i; tz := n_val i |}.
(** integer_iterator.hpp:53-58: the sum is computed in the common type and
    converted to the value type. *)
Definition n_add (i : niter) (offset : tval) : outcome niter :=
  do p <- tbin Z.mul offset (tint (n_step i));
  do s <- tbin Z.add (n_get i) p;
  Ok {| n_ty := n_ty i; n_val := tconv (n_ty i) s; n_step := n_step i |}.
(** integer_iterator.hpp:61-70 *)
Definition n_diff (l r : niter) : outcome tval :=
  assert_then (n_step l =? n_step r)
    (do d <- tbin Z.sub (n_get l) (n_get r);
     do m <- tdiv Z.rem d (tint (n_step l));
     assert_then (tz m =? 0)
       (do d <- tbin Z.sub (n_get l) (n_get r);
        tdiv Z.quot d (tint (n_step l)))).
(** integer_iterator.hpp:47-51 *)
Definition n_eq (l r : niter) : bool := n_val l =? n_val r.
(** random_access_iterator_interface.hpp:57-67 *)
Definition n_sub (i : niter) (offset : tval) : outcome niter := do m <- tneg offset; n_add i m.
(** Lines 24-28 *)
Definition n_at (i : niter) (offset : tval) : outcome Z := do j <- n_add i offset; Ok (n_val j).
(** Lines 32-34, 53-55 *)
Definition n_next (i : niter) : outcome niter := n_add i (tint 1).
Definition n_prev (i : niter) : outcome niter := n_add i (tint (-1)).
(** Lines 76-79: the sign of the difference in its type. *)
Definition n_cmp (l r : niter) : outcome comparison := do d <- n_diff l r; Ok (Z.compare (tz d) 0).

(** ** Ranges of integer iterators *)
(** random_access_range_interface.hpp:26-28, signedness.hpp:18-21 *)
Definition r_size (b e : niter) : outcome tval :=
  do d <- n_diff e b; let t := {| bits := bits (tty d); sgn := false |} in Ok {| tty := t; tz := tconv t d |}.
(** Comparisons of operands of different types. *)
(* The language ([expr.rel], C++20). *)
Definition tcmp (op : Z -> Z -> bool) (x y : tval) : bool :=
  let t := common (promote (tty x)) (promote (tty y)) in op (tconv t x) (tconv t y).
(** random_access_range_interface.hpp:18-24 *)
Definition r_at (b e : niter) (i : tval) : outcome Z :=
  if tcmp Z.leb (tint 0) i then
    do n <- r_size b e;
    assert_then (tcmp Z.ltb i n) (n_at b i)
  else AssertFail.
(** basic_range_interface.hpp:21-34, bidirectional_range_interface.hpp:16-23 *)
Definition r_empty (b e : niter) : bool := n_eq b e.
Definition r_front (b e : niter) : outcome Z := assert_then (negb (r_empty b e)) (Ok (n_val b)).
Definition r_back (b e : niter) : outcome Z := assert_then (negb (r_empty b e)) (do l <- n_prev e; Ok (n_val l)).

(** ** Linked lists *)
(** linked_list_iterator.hpp: nodes in a memory; the iterator is a node or null. *)
Section Nodes.
  Context {V : Type}.
  (* range/iterator/linked_list_iterator.hpp:14-47 *)
  Record node := { d_value : V; d_next : option nat; d_prev : option nat }.
  Definition heap := nat -> option node.
  (** Lines 34-37, 71-74 *)
  Definition l_get (h : heap) (i : option nat) : outcome V :=
    match i with
    | None => AssertFail
    | Some a => match h a with Some d => Ok (d_value d) | None => UB end
    end.
  (** Lines 39-43, 76-80 *)
  Definition l_next (h : heap) (i : option nat) : outcome (option nat) :=
    match i with
    | None => AssertFail
    | Some a => match h a with Some d => Ok (d_next d) | None => UB end
    end.
  (** Lines 82-86 *)
  Definition l_prev (h : heap) (i : option nat) : outcome (option nat) :=
    match i with
    | None => AssertFail
    | Some a => match h a with Some d => Ok (d_prev d) | None => UB end
    end.
  (** [for (; first != last; ++first) use the value], lines 30-32, 67-69. *)
  Definition l_eq (i j : option nat) : bool :=
    match i, j with None, None => true | Some a, Some b => Nat.eqb a b | _, _ => false end.
  Fixpoint l_walk (h : heap) (fuel : nat) (first last : option nat) : outcome (list V) :=
    if l_eq first last then Ok []
    else match fuel with
         | O => NoFuel
         | S fuel => do v <- l_get h first; do first <- l_next h first; do vs <- l_walk h fuel first last; Ok (v :: vs)
         end.
End Nodes.
