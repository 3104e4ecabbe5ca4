(** Model of functional/tuple/{invoke_first_matching,invoke_all_matching}.hpp: which elements of a
    tuple of function objects are called with given arguments, and in which order.

    Simplified: arguments convert only to parameters of their own type; every type can be moved, some
    cannot be copied; a function object has one operator(), which can be called whatever the constness
    and the value category of the object. *)
From Coq Require Import List Bool Arith.
From Verif Require Import Outcome.
Import ListNotations.

(** ** Binding of arguments to parameters *)
(* The language (C++20, [dcl.init.ref]); used by the requires clauses of functional/tuple/*.hpp
   cited below. *)
Record ty := { t_name : nat; t_copyable : bool }.
(** An argument expression: its type, constness and value category. *)
(* The language ([expr], C++20). *)
Record arg := { a_type : ty; a_const : bool; a_lvalue : bool }.
(** T, T&, T const&, T&&, T const&&, auto&& *)
(* The language ([over.best.ics], C++20): std::is_invocable_v at
   functional/tuple/invoke_all_matching.hpp:22. *)
Inductive param := PValue (t : ty) | PRef (t : ty) | PConstRef (t : ty) | PRvalue (t : ty) | PConstRvalue (t : ty) | PAny.
Definition same (t : ty) (a : arg) : bool := Nat.eqb (t_name t) (t_name (a_type a)).
Definition binds (p : param) (a : arg) : bool :=
  match p with
  | PValue t => same t a && (t_copyable t || negb (a_lvalue a || a_const a))
  | PRef t => same t a && a_lvalue a && negb (a_const a)
  | PConstRef t => same t a
  | PRvalue t => same t a && negb (a_lvalue a) && negb (a_const a)
  | PConstRvalue t => same t a && negb (a_lvalue a)
  | PAny => true
  end.
Fixpoint all2 (ps : list param) (args : list arg) : bool :=
  match ps, args with
  | [], [] => true
  | p :: ps, a :: args => binds p a && all2 ps args
  | _, _ => false
  end.

(** Function objects, with what a call does to the state of the program. *)
Section Tuples.
  Context {W : Type}.
  (* The language: the functions in the tuple given to functional/tuple/*.hpp; no lines of their
     own. *)
  (* Arguments of invoke_all_matching.hpp:36-44 and invoke_first_matching.hpp:33-40. *)
  Record callable := { c_params : list param; c_call : list arg -> W -> W }.
  (** std::is_invocable_v *)
  (* invoke_all_matching.hpp:22, invoke_first_matching.hpp:23 *)
  Definition invocable (c : callable) (args : list arg) : bool := all2 (c_params c) args.

  (** invoke_first_matching.hpp:16-25; a failed static_assert is None. [k] elements are left. *)
  Fixpoint find_first_matching (cs : list callable) (args : list arg) (i k : nat) : option nat :=
    match k with
    | O => None
    | S k =>
        match nth_error cs i with
        | None => None
        | Some c => if invocable c args then Some i else find_first_matching cs args (S i) k
        end
    end.
  (** Lines 31-40: the arguments are forwarded. *)
  Definition invoke_first_matching (cs : list callable) (args : list arg) (w : W) : option W :=
    match find_first_matching cs args 0 (length cs) with
    | None => None
    | Some i => match nth_error cs i with Some c => Some (c_call c args w) | None => None end
    end.

  (** The type deduced for Args&: the argument with its const, which names an rvalue when it is used
      as a type in is_invocable_v. *)
  (* The language: std::forward and Args& in functional/tuple/*.hpp, see the definitions below. *)
  (* invoke_all_matching.hpp:18, 22, 29 *)
  Definition as_rvalue (a : arg) : arg := {| a_type := a_type a; a_const := a_const a; a_lvalue := false |}.
  Definition as_lvalue (a : arg) : arg := {| a_type := a_type a; a_const := a_const a; a_lvalue := true |}.
  (** invoke_all_matching.hpp:17-26: the second overload takes part if the constraint holds and the
      call in its return type is well-formed; otherwise the first, which does nothing. *)
  Definition invoke_if_can (c : callable) (args : list arg) (w : W) : W :=
    if invocable c (map as_rvalue args) && invocable c (map as_lvalue args)
    then c_call c (map as_lvalue args) w else w.
  (** Lines 28-34, 42-48: a fold over the comma; the arguments are lvalues, as they are named. *)
  Definition invoke_all_matching (cs : list callable) (args : list arg) (w : W) : W :=
    fold_left (fun w c => invoke_if_can c (map as_lvalue args) w) cs w.
End Tuples.
