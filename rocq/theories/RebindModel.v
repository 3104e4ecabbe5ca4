(** Model of the type computations of include/actl/meta: rebind, template_type, strict_common_type,
    are_same, is_one_of, and of container/traits.hpp.  A type is a plain type, an array or a
    specialisation of a class template with type parameters, written with all default arguments. *)
From Coq Require Import ZArith List Bool.
Import ListNotations.

(* The language: types and specializations of templates (C++20). *)
Inductive ty :=
| Atom (n : nat)                  (* any other type *)
| Arr (t : ty) (n : nat)          (* T[N] *)
| App (c : nat) (ts : list ty).   (* C<Ts...>; std::less is 0 and std::equal_to is 1 *)
Definition Void : ty := Atom 0.
(** ac::none and ac::dummy_container *)
(* core/none.hpp:15, container/dummy_container.hpp:20 *)
Definition none : ty := Atom 1.
Definition dummy_container : ty := Atom 2.

(** std::is_same *)
(* The language (C++20). *)
Fixpoint same (a b : ty) {struct a} : bool :=
  match a, b with
  | Atom m, Atom n => Nat.eqb m n
  | Arr s m, Arr t n => same s t && Nat.eqb m n
  | App c l, App d r =>
      Nat.eqb c d &&
      (fix all (l r : list ty) : bool :=
         match l, r with
         | [], [] => true
         | x :: l, y :: r => same x y && all l r
         | _, _ => false
         end) l r
  | _, _ => false
  end.

(** template_type.hpp:13-26 *)
Definition template_type (t : ty) : ty :=
  match t with Arr s _ => s | App _ (s :: _) => s | _ => t end.

(** rebind.hpp:68-76 apply: std::less<T> and std::equal_to<T>. *)
Definition transparent (c : nat) (ts : list ty) : bool :=
  match ts with [_] => Nat.eqb c 0 || Nat.eqb c 1 | _ => false end.
(** rebind.hpp:22-79.  Specialisations by the user are not modelled. *)
Fixpoint rebind (t target : ty) : ty :=
  match t with
  | Arr _ n => Arr target n
  | App c (source :: ts) =>
      if transparent c (source :: ts) then App c [Void]
      else App c (target :: map (fun x => if same x source then target
                                          else if same (template_type x) source then rebind x target
                                          else x) ts)
  | _ => t
  end.
(** container/traits.hpp:16-20 *)
Definition rebind_container (c target : ty) : ty :=
  if same c none || same target none then dummy_container else rebind c target.

(** type_traits.hpp:28-35 *)
Definition are_same (l : list ty) : bool :=
  match l with
  | [] => false
  | t :: l => (fix from (l : list ty) : bool := match l with [] => true | u :: l => same t u && from l end) l
  end.
(** type_traits.hpp:21-22 *)
Definition is_one_of (t : ty) (l : list ty) : bool := existsb (same t) l.

(** strict_common_type.hpp:28-42; [is_constant] tells which types are constants.  None: ill-formed. *)
Definition strict_common2 (is_constant : ty -> bool) (t u : ty) : option ty :=
  if is_constant u then Some t else if is_constant t then Some u else if same t u then Some t else None.
(** strict_common_type.hpp:23-26, 44-46 *)
Fixpoint strict_common (is_constant : ty -> bool) (t : ty) (l : list ty) : option ty :=
  match l with
  | [] => Some t
  | u :: l => match strict_common2 is_constant t u with Some c => strict_common is_constant c l | None => None end
  end.
