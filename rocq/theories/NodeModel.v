(** Model of the ids of the elements of containers without random access: container/container_id.hpp
    and container/functions.hpp for std::list, std::set, std::multiset, ac::hash_set and
    ac::hash_multiset (container/hash_set.hpp, std/list.hpp, std/set.hpp).

    The containers themselves belong to the standard library and are given by what the standard
    says: a container is a sequence of nodes, every node has an address of its own for as long as it
    lives, a new node gets an address that no living node has (but may get one of a node erased
    before).  [None] is the iterator behind the last node.

    Simplified: one container, so that ids of different containers are never mixed; ids of 64 bits;
    copies and comparisons of elements do not throw; std::find, std::remove and the members of the
    containers are modelled by their results. *)
From Coq Require Import ZArith List Bool.
From Verif Require Import Outcome NumericModel BinaryModel.
Import ListNotations.
Local Open Scope Z_scope.

(** Which branches the library takes: AssociativeRange, SortedRange, UniqueRange. *)
(* range/traits/associative_range.hpp:26-29, std/list.hpp:15-19, std/set.hpp:15-27,
   container/hash_set.hpp:29-40 *)
Inductive kind := Sequence | Sorted (unique : bool) | Hashed (unique : bool).

Section Node.
  Context {A : Type}.
  (** The order of a sorted container, [==] and the hash of the elements. *)
  Variable lt eqb : A -> A -> bool.
  Variable hash : A -> Z.

  (** Nodes in the order of iteration: address and element. *)
  (* The standard library ([container.requirements], C++20), used at container_id.hpp:24-60. *)
  Definition cont := list (Z * A).
  (** An id is an iterator of the container. *)
  (* container_id.hpp:24-39 *)
  Definition id := option Z.

  Fixpoint lookup (c : cont) (a : Z) : option A :=
    match c with [] => None | (b, x) :: c => if b =? a then Some x else lookup c a end.
  Fixpoint update (c : cont) (a : Z) (x : A) : cont :=
    match c with [] => [] | (b, y) :: c => if b =? a then (b, x) :: c else (b, y) :: update c a x end.
  Fixpoint unlink (c : cont) (a : Z) : cont :=
    match c with [] => [] | (b, y) :: c => if b =? a then c else (b, y) :: unlink c a end.

  (** container_id.hpp:100-123 *)
  Definition id_begin (c : cont) : id := match c with [] => None | (a, _) :: _ => Some a end.
  Definition id_end : id := None.
  Definition id_null : id := id_end.
  (** Increment of the iterator; behind the last node it is undefined. *)
  (* iterator_adaptor.hpp:65-68 with the iterator of the container *)
  Fixpoint next (c : cont) (a : Z) : option id :=
    match c with
    | [] => None
    | (b, _) :: c => if b =? a then Some (id_begin c) else next c a
    end.
  Definition id_next (c : cont) (i : id) : outcome id :=
    match i with
    | None => UB
    | Some a => match next c a with Some j => Ok j | None => UB end
    end.
  (** [for (auto id : id_range(c))] *)
  (* container_id.hpp:125-129; 49-52: dereferencing an id gives the id *)
  Fixpoint id_walk (fuel : nat) (c : cont) (i : id) : outcome (list id) :=
    match i with
    | None => Ok []
    | Some a =>
        match fuel with
        | O => NoFuel
        | S fuel => do j <- id_next c i; do is <- id_walk fuel c j; Ok (i :: is)
        end
    end.
  Definition id_range (c : cont) : outcome (list id) := id_walk (length c) c (id_begin c).

  (** container_id.hpp:149-157: ids are not null. *)
  Definition id_check (i : id) : bool := match i with None => false | Some _ => true end.
  (** container_id.hpp:158-177; an id of an erased node is undefined behaviour. *)
  Definition id_at (c : cont) (i : id) : outcome A :=
    assert_then (id_check i)
      match i with
      | None => UB
      | Some a => match lookup c a with Some x => Ok x | None => UB end
      end.
  (** An assignment to the reference that id_at gives, lines 158-168. *)
  Definition id_write (c : cont) (i : id) (x : A) : outcome cont :=
    assert_then (id_check i)
      match i with
      | None => UB
      | Some a => match lookup c a with Some _ => Ok (update c a x) | None => UB end
      end.
  (** container_id.hpp:187-190 with 139-147: there is no assertion. *)
  Definition id_erase (c : cont) (i : id) : outcome cont :=
    match i with
    | None => UB
    | Some a => match lookup c a with Some _ => Ok (unlink c a) | None => UB end
    end.

  (** The place behind all elements that are not greater (std::set, std::multiset). *)
  (* The standard library, used at functions.hpp:21 *)
  Fixpoint insert_sorted (c : cont) (n : Z * A) : cont :=
    match c with
    | [] => [n]
    | m :: c => if lt (snd n) (snd m) then n :: m :: c else m :: insert_sorted c n
    end.
  (** The first node with a given property. *)
  Fixpoint first_node (p : A -> bool) (c : cont) : id :=
    match c with [] => None | (a, x) :: c => if p x then Some a else first_node p c end.
  (** Equivalent elements of a sorted container, and elements that a hashed container takes for the
      same: equal hashes and [==]. *)
  Definition equivalent (x y : A) : bool := negb (lt x y) && negb (lt y x).
  Definition same_key (x y : A) : bool := (hash y =? hash x) && eqb y x.
  (** functions.hpp:18-32, container_id.hpp:181-185.  [a] is the address of the new node, [order] the
      order of iteration that a hashed container has after the insertion. *)
  Definition id_emplace (k : kind) (order : cont -> cont) (a : Z) (c : cont) (x : A) : cont * (id * bool) :=
    match k with
    | Sequence => (c ++ [(a, x)], (Some a, true))
    | Sorted false => (insert_sorted c (a, x), (Some a, true))
    | Sorted true =>
        match first_node (equivalent x) c with
        | Some b => (c, (Some b, false))
        | None => (insert_sorted c (a, x), (Some a, true))
        end
    | Hashed false => (order (c ++ [(a, x)]), (Some a, true))
    | Hashed true =>
        match first_node (same_key x) c with
        | Some b => (c, (Some b, false))
        | None => (order (c ++ [(a, x)]), (Some a, true))
        end
    end.

  (** functions.hpp:42-51, container_id.hpp:192-195: the member find of a sorted container - the
      first element that is not less, unless it is greater -, std::find in others. *)
  Definition id_find (k : kind) (c : cont) (x : A) : id :=
    match k with
    | Sorted _ =>
        match first_node (fun y => negb (lt y x)) c with
        | None => None
        | Some a => match lookup c a with
                    | Some y => if lt x y then None else Some a
                    | None => None
                    end
        end
    | _ => first_node (fun y => eqb y x) c
    end.

  (** functions.hpp:34-40: the member erase of an associative container; std::remove moves the
      elements that stay to the first nodes of a list, the last nodes are erased. *)
  Definition erase (k : kind) (c : cont) (x : A) : cont :=
    match k with
    | Sorted _ => filter (fun n => negb (equivalent x (snd n))) c
    | Hashed _ => filter (fun n => negb (same_key x (snd n))) c
    | Sequence => combine (map fst c) (filter (fun y => negb (eqb y x)) (map snd c))
    end.
End Node.

(** container_id.hpp:41-43: the address of the element; behind the last node there is none. *)
Definition get_id_key (i : id) : outcome Z := match i with None => UB | Some a => Ok a end.
(** container_id.hpp:45-47 *)
Definition id_less (i j : id) : outcome bool :=
  do a <- get_id_key i; do b <- get_id_key j; Ok (a <? b).
(** Equality of the iterators. *)
(* iterator_adaptor.hpp:70-77 *)
Definition id_equal (i j : id) : bool :=
  match i, j with None, None => true | Some a, Some b => a =? b | _, _ => false end.
(** container_id.hpp:54-59, hash.hpp:36-47 for uintptr_t. *)
Definition id_hash (seed : Z) (i : id) : outcome Z :=
  do a <- get_id_key i; Ok (hash_value_bytes seed (le_bytes 8 a)).
