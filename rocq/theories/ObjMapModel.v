(** Model of property maps over objects in memory: map/member_map.hpp, map/composite_map.hpp,
    map/generic_container.hpp (vectors), map/pair_associative_container.hpp, map/function_map.hpp.
    Objects have members that are objects, references name an object or a part of one, and objects
    that have been destroyed can no longer be read. *)
From Coq Require Import ZArith List Bool.
From Verif Require Import Outcome.
Import ListNotations.
Local Open Scope Z_scope.

(** ** Objects *)

(** A number, or an object with members: a struct, a vector with its elements, a std::map with
    its pairs. *)
(* The language. *)
Inductive obj := Leaf (v : Z) | Rec (fields : list obj).
(* The language: the member of a member of ... *)
Notation path := (list nat).
Fixpoint at_path (o : obj) (p : path) : option obj :=
  match p with
  | [] => Some o
  | i :: p => match o with
              | Leaf _ => None
              | Rec fs => match nth_error fs i with Some o => at_path o p | None => None end
              end
  end.
(* The language: assignment to an element or a member. *)
Fixpoint set_nth (fs : list obj) (i : nat) (o : obj) : list obj :=
  match fs, i with
  | [], _ => []
  | _ :: fs, O => o :: fs
  | a :: fs, S i => a :: set_nth fs i o
  end.
Fixpoint set_path (o : obj) (p : path) (v : obj) : option obj :=
  match p with
  | [] => Some v
  | i :: p => match o with
              | Leaf _ => None
              | Rec fs => match nth_error fs i with
                          | Some o => match set_path o p v with Some o' => Some (Rec (set_nth fs i o')) | None => None end
                          | None => None
                          end
              end
  end.

(** ** Memory *)

(** [None] is an object whose life has ended; addresses are not used again. *)
(* The language. *)
Definition store := list (option obj).
Definition ref : Type := nat * path.
Definition load (s : store) (r : ref) : outcome obj :=
  match nth_error s (fst r) with
  | Some (Some o) => match at_path o (snd r) with Some x => Ok x | None => UB end
  | _ => UB
  end.
Fixpoint set_cell (s : store) (a : nat) (o : option obj) : store :=
  match s, a with
  | [], _ => []
  | _ :: s, O => o :: s
  | c :: s, S a => c :: set_cell s a o
  end.
(* The language: assignment through a reference. *)
Definition assign (s : store) (r : ref) (v : obj) : outcome store :=
  match nth_error s (fst r) with
  | Some (Some o) => match set_path o (snd r) v with Some o' => Ok (set_cell s (fst r) (Some o')) | None => UB end
  | _ => UB
  end.

(** ** Maps *)

(** member_map.hpp:16-41 ([Member]; const and not, static and not), generic_container.hpp:31-59 for a
    vector held by reference ([Cont]), pair_associative_container.hpp:15-46 ([Assoc], the object is a list
    of pairs), function_map.hpp:14-31 ([Fn], a function that returns a value), shift_map.hpp:18-37
    ([Shift], without the conversions of C59), composite_map.hpp:62-96 ([Comp]).
    The class composite_map of three and more maps (composite_map.hpp:58-60) is
    [Comp (Comp m1 m2) m3]. *)
Inductive mp :=
| Member (i : nat)
| Cont (r : ref)
| Assoc (r : ref) (dflt : obj)
| Fn (f : obj -> obj)
| Shift (offset : Z)
| Comp (m1 m2 : mp).

(** What is passed to a map and what it returns: a value or a reference. *)
Inductive arg := Val (o : obj) | Ref (r : ref).

(** The key is bound to a reference: member_map.hpp:49; composite_map.hpp:64, 87 *)
Fixpoint by_reference (m : mp) : bool :=
  match m with Member _ => true | Comp m1 _ => by_reference m1 | _ => false end.
(** map_traits::writable: member_map.hpp:54, generic_container.hpp:38-39,
    pair_associative_container.hpp:23, traits.hpp:20 with function_map.hpp:31, composite_map.hpp:75-76, 90 *)
Fixpoint invertible (m : mp) : bool :=
  match m with Shift _ => true | Comp m1 m2 => invertible m1 && invertible m2 | _ => false end.
Fixpoint writable (m : mp) : bool :=
  match m with
  | Member _ | Cont _ | Assoc _ _ => true
  | Fn _ | Shift _ => false
  | Comp m1 m2 => writable m2 || (writable m1 && invertible m2)
  end.

(* The language: reading the operand where a value is needed. *)
Definition value_of (s : store) (a : arg) : outcome obj :=
  match a with Val o => Ok o | Ref r => load s r end.
(** The pairs of a std::map and the mapped value of a key. *)
(* The standard library, behind pair_associative_container.hpp:32-35. *)
Fixpoint find_pair (pairs : list obj) (k : Z) : option nat :=
  match pairs with
  | Rec (Leaf k' :: _) :: l => if k' =? k then Some O else option_map S (find_pair l k)
  | _ => None
  end.

(** traits.hpp:108-112 with generic_container.hpp:50-52 and container_id.hpp:159-162, member_map.hpp:65-67,
    pair_associative_container.hpp:32-35, function_map.hpp:23-25, composite_map.hpp:111-113. The result of the
    inner call is a temporary object if the outer map takes a reference to it; its life ends
    with the return statement. *)
Fixpoint mget (s : store) (m : mp) (key : arg) : outcome (store * arg) :=
  match m with
  | Member i =>
      match key with
      | Ref (a, p) => do _ <- load s (a, p ++ [i]); Ok (s, Ref (a, p ++ [i]))
      | Val _ => UB
      end
  | Cont (a, p) =>
      do k <- value_of s key;
      do c <- load s (a, p);
      match c, k with
      | Rec fs, Leaf k =>
          assert_then ((0 <=? k) && (k <? Z.of_nat (length fs))) (Ok (s, Ref (a, p ++ [Z.to_nat k])))
      | _, _ => UB
      end
  | Assoc r dflt =>
      do k <- value_of s key;
      do c <- load s r;
      match c, k with
      | Rec pairs, Leaf k =>
          match find_pair pairs k with
          | Some i => do v <- load s (fst r, snd r ++ [i; 1%nat]); Ok (s, Val v)
          | None => Ok (s, Val dflt)
          end
      | _, _ => UB
      end
  | Fn f => do x <- value_of s key; Ok (s, Val (f x))
  | Shift offset =>
      do k <- value_of s key;
      match k with Leaf k => Ok (s, Val (Leaf (k - offset))) | Rec _ => UB end
  | Comp m1 m2 =>
      do (s, k) <- mget s m1 key;
      match k with
      | Val o =>
          if by_reference m2 then
            do (s', r) <- mget (s ++ [Some o]) m2 (Ref (length s, []));
            Ok (set_cell s' (length s) None, r)
          else mget s m2 (Val o)
      | Ref r => mget s m2 (Ref r)
      end
  end.

(** traits.hpp:120-124; shift_map.hpp:24-26, composite_map.hpp:123-125 *)
Fixpoint minvert (m : mp) (v : obj) : outcome obj :=
  match m with
  | Shift offset => match v with Leaf v => Ok (Leaf (v + offset)) | Rec _ => UB end
  | Comp m1 m2 => do x <- minvert m2 v; minvert m1 x
  | _ => UB
  end.

(** traits.hpp:114-118; get and assignment: traits.hpp:132-139; pair_associative_container.hpp:37-39; composite_map.hpp:115-121.
    A call of put for a map that is not writable does not compile. *)
Fixpoint mput (s : store) (m : mp) (key : arg) (v : obj) : outcome store :=
  match m with
  | Member _ | Cont _ =>
      do (s, r) <- mget s m key;
      match r with Ref r => assign s r v | Val _ => UB end
  | Assoc r dflt =>
      do k <- value_of s key;
      do c <- load s r;
      match c, k with
      | Rec pairs, Leaf k =>
          match find_pair pairs k with
          | Some i => assign s (fst r, snd r ++ [i; 1%nat]) v
          | None => assign s r (Rec (pairs ++ [Rec [Leaf k; v]]))
          end
      | _, _ => UB
      end
  | Fn _ | Shift _ => UB
  | Comp m1 m2 =>
      if writable m2 then
        do (s, k) <- mget s m1 key;
        match k with
        | Val o =>
            if by_reference m2 then
              do s' <- mput (s ++ [Some o]) m2 (Ref (length s, [])) v;
              Ok (set_cell s' (length s) None)
            else mput s m2 (Val o) v
        | Ref r => mput s m2 (Ref r) v
        end
      else do x <- minvert m2 v; mput s m1 key x
  end.

(** composite_map.hpp:127-130 with 22-31 and generic_container.hpp:54-57, 18-27: the pairs of a vector followed by
    a map, in order. *)
Fixpoint mrange_from (s : store) (r : ref) (m : mp) (n i : nat) : outcome (list (Z * arg)) :=
  match n with
  | O => Ok []
  | S n =>
      do (_, x) <- mget s m (Ref (fst r, snd r ++ [i]));
      do l <- mrange_from s r m n (S i);
      Ok ((Z.of_nat i, x) :: l)
  end.
Definition mrange (s : store) (r : ref) (m : mp) : outcome (list (Z * arg)) :=
  do c <- load s r;
  match c with Rec fs => mrange_from s r m (length fs) 0 | Leaf _ => UB end.
(** A client: [for (auto [k, x] : map_range(map)) x = f(x)]. *)
(* A client of composite_map.hpp:127-130. *)
Fixpoint transform_all (s : store) (l : list (Z * arg)) (f : obj -> obj) : outcome store :=
  match l with
  | [] => Ok s
  | (_, Ref r) :: l => do x <- load s r; do s <- assign s r (f x); transform_all s l f
  | (_, Val _) :: _ => UB
  end.
