(** Model of iterators built on top of others:
    range/iterator/interface/iterator_adaptor.hpp, range/iterator/limited_input_iterator.hpp,
    range/limited_input_range.hpp, range/iterator/transform_iterator.hpp.

    Simplified: the operations of the base iterator do not change anything but the iterator,
    comparison of base iterators is always defined (pointers, linked_list_iterator). *)
From Coq Require Import ZArith List Bool.
From Verif Require Import Outcome IntTypes IterModel.
Import ListNotations.
Local Open Scope Z_scope.

(** A base iterator: reading, increment, decrement, addition, comparison and Iterator{}. *)
(* The requirements on the parameter Iterator of the class limited (C++20 iterator concepts); lines
   of the class are cited below. *)
Record base (I V : Type) := {
  b_get : I -> outcome V;
  b_next : I -> outcome I;
  b_prev : I -> outcome I;
  b_add : I -> Z -> outcome I;
  b_eq : I -> I -> bool;
  b_null : I
}.
Arguments b_get {I V}. Arguments b_next {I V}. Arguments b_prev {I V}. Arguments b_add {I V}.
Arguments b_eq {I V}. Arguments b_null {I V}.

(** [for (; first != last; ++first) use *first] *)
(* A client: the range-based for statement (C++20). *)
Fixpoint walk {I V} (b : base I V) (fuel : nat) (first last : I) : outcome (list V) :=
  if b_eq b first last then Ok []
  else match fuel with
       | O => NoFuel
       | S fuel => do v <- b_get b first; do next <- b_next b first; do vs <- walk b fuel next last; Ok (v :: vs)
       end.

(** Pointers into an array, [None] is the null pointer; arithmetic outside of the array is UB
    (adding zero to the null pointer is fine). *)
Section Pointer.
  Context {V : Type} (a : list V).
  (* The language ([expr.add], C++20). *)
  Definition p_get (i : option Z) : outcome V :=
    match i with
    | None => UB
    | Some p => if p <? 0 then UB else match nth_error a (Z.to_nat p) with Some v => Ok v | None => UB end
    end.
  Definition p_add (i : option Z) (k : Z) : outcome (option Z) :=
    match i with
    | None => if k =? 0 then Ok None else UB
    | Some p => if (0 <=? p + k) && (p + k <=? Z.of_nat (length a)) then Ok (Some (p + k)) else UB
    end.
  Definition p_eq (i j : option Z) : bool :=
    match i, j with None, None => true | Some p, Some q => p =? q | _, _ => false end.
  Definition pointer : base (option Z) V :=
    {| b_get := p_get; b_next := fun i => p_add i 1; b_prev := fun i => p_add i (-1); b_add := p_add;
       b_eq := p_eq; b_null := None |}.
End Pointer.

(** linked_list_iterator.hpp; there is no addition. *)
(* linked_list_iterator.hpp:14-47 *)
Definition linked {V} (h : heap (V := V)) : base (option nat) V :=
  {| b_get := l_get h; b_next := l_next h; b_prev := l_prev h; b_add := fun _ _ => UB; b_eq := l_eq; b_null := None |}.

(** ** Limited input *)
Section Limited.
  Context {I V : Type} (b : base I V).
  (** limited_input_iterator.hpp:35-36 with the base of iterator_adaptor.hpp:103 *)
  Record lim := { li_base : I; li_limit : Z }.
  (** Lines 21-24; limited_input_range.hpp:14-19 *)
  Definition lim_end : lim := {| li_base := b_null b; li_limit := 0 |}.
  Definition lim_begin (i : I) (limit : Z) : lim := {| li_base := i; li_limit := limit |}.
  (** Lines 26-33, with assertions ([dbg]) and without them. *)
  Definition lim_next (dbg : bool) (i : lim) : outcome lim :=
    if dbg && negb (0 <? li_limit i) then AssertFail
    else
      do l <- iarith int32 (li_limit i - 1);
      if 0 <? l then do j <- b_next b (li_base i); Ok {| li_base := j; li_limit := l |}
      else Ok {| li_base := b_null b; li_limit := l |}.
  (** iterator_adaptor.hpp:61-63, 71-77, 79-84, 86-92: the limit does not take part. *)
  Definition limited (dbg : bool) : base lim V :=
    {| b_get := fun i => b_get b (li_base i);
       b_next := lim_next dbg;
       b_prev := fun i => do j <- b_prev b (li_base i); Ok {| li_base := j; li_limit := li_limit i |};
       b_add := fun i k => do j <- b_add b (li_base i) k; Ok {| li_base := j; li_limit := li_limit i |};
       b_eq := fun i j => b_eq b (li_base i) (li_base j);
       b_null := lim_end |}.
End Limited.

(** ** Transformed values *)
(** transform_iterator.hpp:35-36, iterator_adaptor.hpp:65-92 for the rest; the function is stored in
    the iterator and is the same in all of them. *)
Definition transformed {I V W} (b : base I V) (f : V -> W) : base I W :=
  {| b_get := fun i => do v <- b_get b i; Ok (f v);
     b_next := b_next b; b_prev := b_prev b; b_add := b_add b; b_eq := b_eq b; b_null := b_null b |}.
