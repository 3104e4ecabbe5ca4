(** Logical operations (numeric/logic) in expressions. *)
From Coq Require Import ZArith List Bool PeanoNat.
From Verif Require Import Outcome ExprModel.
Import ListNotations.

(** Arguments: bool and another arithmetic type. *)
(* std::is_arithmetic_v at logical_and.hpp:37-39, logical_or.hpp:37-39, logical_not.hpp:27-28. *)
Inductive lvalue := LBool (b : bool) | LInt (z : Z).
Inductive ltype := LTyBool | LTyInt.
Definition ltype_of (v : lvalue) : ltype := match v with LBool _ => LTyBool | LInt _ => LTyInt end.
(** core/if_else.hpp:21-23: the conversion to bool. *)
Definition ltruth (v : lvalue) : option bool := match v with LBool b => Some b | LInt z => Some (negb (z =? 0)%Z) end.
(** logical_and.hpp:13-16, 31-47, logical_or.hpp:13-16, 31-47, logical_not.hpp:13-16, 24-35; LUser is any
    operation of the user. *)
Inductive loper := LAnd | LAndScalar | LOr | LOrScalar | LNot | LNotScalar | LUser (u : nat).
Definition lterm := term lvalue loper unit.

Section Logic.
  (** The members evaluate of the operations of the user. *)
  Variable user : nat -> list lvalue -> outcome lvalue.
  (** logical_and.hpp:41-44, logical_or.hpp:41-44, logical_not.hpp:30-32: only for bool; otherwise nothing
      compiles. *)
  Definition lprim (o : loper) (vs : list lvalue) : outcome lvalue :=
    match o, vs with
    | LAndScalar, [LBool l; LBool r] => Ok (LBool (l && r))
    | LOrScalar, [LBool l; LBool r] => Ok (LBool (l || r))
    | LNotScalar, [LBool x] => Ok (LBool (negb x))
    | LUser u, vs => user u vs
    | _, _ => UB
    end.
  (** AC_REGISTER_OVERLOAD at logical_and.hpp:46, logical_or.hpp:46, logical_not.hpp:34 with the requirements
      at 37-39 and 27-28: all types of arguments are known and arithmetic. *)
  Definition lformula (o : loper) (tys : list (option ltype)) : option lterm :=
    let arith := forallb (fun t => match t with Some _ => true | None => false end) tys in
    match o, length tys with
    | LAnd, 2%nat => if arith then Some (TOp LAndScalar) else None
    | LOr, 2%nat => if arith then Some (TOp LOrScalar) else None
    | LNot, 1%nat => if arith then Some (TOp LNotScalar) else None
    | _, _ => None
    end.
  (** No policy is for these operations. *)
  (* policy/policy.hpp:18-20 *)
  Definition lpolicy (o : loper) (p : unit) : option lterm := None.
  (* expression/evaluate.hpp:32-62 with the operations above. *)
  Definition levaluates (fuel : nat) (st : nat -> lvalue) (t : lterm) : outcome lvalue :=
    eval ltype_of ltruth lprim lformula lpolicy fuel st t.
End Logic.

(** The operators: logical_and.hpp:25-29, logical_or.hpp:25-29, logical_not.hpp:18-22. *)
Definition land (l r : lterm) : lterm := TExpr (TOp LAnd) [l; r].
Definition lor (l r : lterm) : lterm := TExpr (TOp LOr) [l; r].
Definition lnot (x : lterm) : lterm := TExpr (TOp LNot) [x].
(** logical_implies.hpp:15 and a call of it. *)
Definition logical_implies : lterm := lor (lnot (TArg 0 2)) (TArg 1 2).
Definition limplies (l r : lterm) : lterm := TExpr logical_implies [l; r].
(** core/if_else.hpp:13-27 *)
Definition lif (c a b : lterm) : lterm := TExpr TIf [c; a; b].
(** A call with arguments: expression.hpp:49-72. *)
Definition lcall (f : lterm) (vs : list lvalue) : lterm := TExpr f (map TVal vs).
(** logical_and.hpp:18-23, logical_or.hpp:18-23: identity_element for bool. *)
Definition and_identity : bool := true.
Definition or_identity : bool := false.
