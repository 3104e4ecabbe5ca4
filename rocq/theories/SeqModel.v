(** Model of include/actl/sequence: tuple comparison and type lists. *)
From Coq Require Import ZArith List Bool.
From Verif Require Import Outcome.
Import ListNotations.
Local Open Scope Z_scope.

(** ** Tuples *)
Section Tuple.
  (** A heterogeneous tuple of [n] components with component types [A i]. *)
  Variable A : nat -> Type.
  (* The language: std::tuple (C++20). *)
  Definition tup := forall i, A i.
  Variable ops : forall i, A i -> A i -> Z.

  (** sequence/tuple/lexicographical_compare_tuple.hpp:21-29; [k] is the number
      of components after [i] (the recursion ends when i + 1 = n). *)
  Fixpoint compare_tuple_from (i : nat) (k : nat) (l r : tup) : Z :=
    let v := ops i (l i) (r i) in
    match k with
    | O => v
    | S k => if v =? 0 then compare_tuple_from (S i) k l r else v
    end.

  (** get<0> on an empty tuple does not compile, so n >= 1. *)
  Definition compare_tuple (n : nat) (l r : tup) : Z := compare_tuple_from 0 (n - 1) l r.

  Variable eqs : forall i, A i -> A i -> bool.

  (** sequence/tuple/is_equal_tuple.hpp:18-28, a left fold of && *)
  Definition is_equal_tuple (n : nat) (l r : tup) : bool :=
    fold_left (fun b i => b && eqs i (l i) (r i)) (seq 0 n) true.
End Tuple.

(** ** Type lists *)
Section Types.
  Context {T : Type}.    (* types *)

  (** sequence/type_array/at.hpp:29-72; no matching specialisation is [None]. *)
  Fixpoint type_at (fuel : nat) (l : list T) (index : nat) : option T :=
    match index, l with
    | 0%nat, t0 :: _ => Some t0
    | 1%nat, _ :: t1 :: _ => Some t1
    | 2%nat, _ :: _ :: t2 :: _ => Some t2
    | 3%nat, _ :: _ :: _ :: t3 :: _ => Some t3
    | 4%nat, _ :: _ :: _ :: _ :: t4 :: _ => Some t4
    | 5%nat, _ :: _ :: _ :: _ :: _ :: t5 :: _ => Some t5
    | 6%nat, _ :: _ :: _ :: _ :: _ :: _ :: t6 :: _ => Some t6
    | 7%nat, _ :: _ :: _ :: _ :: _ :: _ :: _ :: t7 :: _ => Some t7
    | S (S (S (S (S (S (S (S i))))))), _ :: _ :: _ :: _ :: _ :: _ :: _ :: _ :: l =>
        match fuel with O => None | S fuel => type_at fuel l i end
    | _, _ => None
    end.

  (** sequence/type_array/concat.hpp:20-36 *)
  Fixpoint types_concat_from (acc : list T) (ls : list (list T)) : list T :=
    match ls with
    | [] => acc
    | l :: ls => types_concat_from (acc ++ l) ls
    end.
  Definition types_concat (ls : list (list T)) : list T :=
    match ls with [] => [] | l :: ls => types_concat_from l ls end.

  (** sequence/type_array/slice.hpp:28-57: the prefix of a given length. *)
  Fixpoint types_prefix (fuel : nat) (l : list T) (len : nat) : option (list T) :=
    match len, l with
    | 0%nat, _ => Some []
    | 1%nat, t0 :: _ => Some [t0]
    | 2%nat, t0 :: t1 :: _ => Some [t0; t1]
    | 3%nat, t0 :: t1 :: t2 :: _ => Some [t0; t1; t2]
    | S (S (S (S n))), t0 :: t1 :: t2 :: t3 :: l =>
        match fuel with
        | O => None
        | S fuel =>
            match types_prefix fuel l n with
            | Some p => Some (types_concat [[t0; t1; t2; t3]; p])
            | None => None
            end
        end
    | _, _ => None
    end.

  (** slice.hpp:59-77; [last - k] is a size_t subtraction, a wrapped length
      never matches a prefix of a finite list. *)
  Fixpoint types_slice (fuel : nat) (l : list T) (first last : nat) : option (list T) :=
    let pre l k := if Nat.leb k last then types_prefix (length l) l (last - k) else None in
    match first, l with
    | 0%nat, _ => types_prefix (length l) l last
    | 1%nat, _ :: l => pre l 1%nat
    | 2%nat, _ :: _ :: l => pre l 2%nat
    | 3%nat, _ :: _ :: _ :: l => pre l 3%nat
    | S (S (S (S f))), _ :: _ :: _ :: _ :: l =>
        match fuel with
        | O => None
        | S fuel => if Nat.leb 4 last then types_slice fuel l f (last - 4) else None
        end
    | _, _ => None
    end.

  (** slice.hpp:20-26 *)
  Definition prefix_t (l : list T) (n : nat) := types_slice (length l) l 0 n.
  Definition suffix_t (l : list T) (n : nat) :=
    if Nat.leb n (length l) then types_slice (length l) l (length l - n) (length l) else None.
End Types.
