(** Model of include/actl/map: accounting, composite, shift, associative and
    filtered maps. *)
From Coq Require Import ZArith List Bool.
From Verif Require Import Outcome IntTypes RangeModel.
Import ListNotations.
Local Open Scope Z_scope.

Section Assoc.
  Context {K V : Type}.
  Variable keq : K -> K -> bool.

  (** A container with unique keys (std::map / std::unordered_map), modelled
      as an association list in order of insertion. *)
  (* The standard library, behind map/pair_associative_container.hpp:32-39. *)
  Definition assoc := list (K * V).

  Fixpoint a_find (m : assoc) (k : K) : option V :=
    match m with
    | [] => None
    | (k', v) :: m => if keq k' k then Some v else a_find m k
    end.

  (** std insert: does not overwrite. *)
  (* pair_associative_container.hpp:37-39 *)
  Definition a_insert (m : assoc) (k : K) (v : V) : assoc * bool :=
    match a_find m k with
    | Some _ => (m, false)
    | None => (m ++ [(k, v)], true)
    end.

  (** operator[] followed by assignment. *)
  (* pair_associative_container.hpp:37-39 *)
  Fixpoint a_assign (m : assoc) (k : K) (v : V) : assoc :=
    match m with
    | [] => [(k, v)]
    | (k', v') :: m => if keq k' k then (k', v) :: m else (k', v') :: a_assign m k v
    end.

  (** map/pair_associative_container.hpp:32-35: default when absent. *)
  Definition pac_get (dflt : V) (m : assoc) (k : K) : V :=
    match a_find m k with Some v => v | None => dflt end.

  (** pair_associative_container.hpp:37-39 *)
  Definition pac_put (m : assoc) (k : K) (v : V) : assoc := a_assign m k v.
End Assoc.

Section Accounting.
  Context {K : Type}.
  Variable keq : K -> K -> bool.
  Variable vt : ity.     (* the integral mapped type V *)

  (** map/accounting_map.hpp:61-64 (Invertible = true; the vector of pointers
      to stored keys is a list of keys). *)
  Record acc_map := { acc_range : list (K * Z); acc_inverse : list K }.

  Definition acc_empty : acc_map := {| acc_range := []; acc_inverse := [] |}.

  (** accounting_map.hpp:44-51 *)
  Definition acc_get (m : acc_map) (k : K) : acc_map * Z :=
    let (r, inserted) :=
      a_insert keq (acc_range m) k (wrap vt (Z.of_nat (length (acc_range m)))) in
    let inv := if inserted then acc_inverse m ++ [k] else acc_inverse m in
    ({| acc_range := r; acc_inverse := inv |},
     match a_find keq r k with Some v => v | None => -1 end).

  (** accounting_map.hpp:53-55; the value is cast to size_t, indexing the
      vector out of bounds is UB. *)
  Definition acc_invert (m : acc_map) (v : Z) : outcome K :=
    let i := wrap size_type v in
    if i <? Z.of_nat (length (acc_inverse m))
    then match nth_error (acc_inverse m) (Z.to_nat i) with Some k => Ok k | None => UB end
    else UB.

  (** A history of lookups: the results in order. *)
  (* A client of accounting_map.hpp:44-64. *)
  Fixpoint acc_run (m : acc_map) (ks : list K) : acc_map * list Z :=
    match ks with
    | [] => (m, [])
    | k :: ks => let (m', v) := acc_get m k in
                 let (m'', vs) := acc_run m' ks in (m'', v :: vs)
    end.
End Accounting.

(** ** Composite map *)

(** A property map with state [S], in the vocabulary of map/traits.hpp:81-130.
    Maps that do not support an operation may give it any value. *)
Record pmap (S K V : Type) := {
  pm_get : S -> K -> V;
  pm_put : S -> K -> V -> S;
  pm_invert : S -> V -> K
}.
Arguments pm_get {S K V}. Arguments pm_put {S K V}. Arguments pm_invert {S K V}.

Section Composite.
  Context {S1 S2 K1 K2 V : Type}.
  Variables (m1 : pmap S1 K1 K2) (m2 : pmap S2 K2 V).
  Variable writable2 : bool.

  (** map/composite_map.hpp:111-125 *)
  Definition comp_map : pmap (S1 * S2) K1 V := {|
    pm_get := fun s k => pm_get m2 (snd s) (pm_get m1 (fst s) k);
    pm_put := fun s k v =>
      if writable2 then (fst s, pm_put m2 (snd s) (pm_get m1 (fst s) k) v)
      else (pm_put m1 (fst s) k (pm_invert m2 (snd s) v), snd s);
    pm_invert := fun s v => pm_invert m1 (fst s) (pm_invert m2 (snd s) v)
  |}.

  (** composite_map.hpp:128-130 with 22-33: iteration over map1's pairs,
      values mapped through map2. *)
  Definition comp_range1 (s2 : S2) (r1 : list (K1 * K2)) : list (K1 * V) :=
    map (fun p => (fst p, pm_get m2 s2 (snd p))) r1.

  (** composite_map.hpp:131-134 with 35-49: iteration over map2's pairs, keys
      mapped back through map1. *)
  Definition comp_range2 (s1 : S1) (r2 : list (K2 * V)) : list (K1 * V) :=
    map (fun p => (pm_invert m1 s1 (fst p), snd p)) r2.
End Composite.

(** ** Shift map *)

(** map/shift_map.hpp:20-22: the subtraction is done in the promoted key type,
    the result is cast to the value type. *)
Definition shift_get (kt vt : ity) (offset key : Z) : outcome Z :=
  do d <- iarith (promote kt) (key - offset);
  Ok (wrap vt d).

(** shift_map.hpp:24-26: the sum is converted to Key on return. *)
Definition shift_invert (kt vt : ity) (offset value : Z) : outcome Z :=
  do s <- iarith (promote kt) (wrap kt value + offset);
  Ok (wrap kt s).

(** ** Identity map *)

(** map/identity_map.hpp:17-23 *)
Definition id_get (vt : ity) (k : Z) : Z := wrap vt k.
Definition id_invert (kt : ity) (v : Z) : Z := wrap kt v.

(** ** Filtered map *)

(** map/filtered_map.hpp:50-56 with 22-30: pairs of the underlying map whose
    value satisfies the predicate. *)
Definition test_second {K V} (pred : V -> bool) (p : K * V) : bool := pred (snd p).
Definition filtered_map_range {K V} (pred : V -> bool) (r : list (K * V)) : outcome (list (K * V)) :=
  fr_list (test_second pred) r.
