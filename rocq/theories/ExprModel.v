(** Operations, expressions, overload resolution and policies (include/actl/operation). *)
From Coq Require Import ZArith QArith Qabs List Bool PeanoNat.
From Verif Require Import Outcome RangeModel.
Import ListNotations.

(* Evaluation of a pack of arguments, expression/evaluate.hpp:32-62. *)
Definition otraverse {A B} (f : A -> outcome B) : list A -> outcome (list B) :=
  fix go l := match l with [] => Ok [] | x :: l => do y <- f x; do r <- go l; Ok (y :: r) end.

(** Everything that can be an argument, an operation or an expression. *)
(* Lines are cited case by case: arg.hpp:13-33 and so on. *)
Inductive term {val op pol : Type} :=
| TVal (v : val)                       (* stored by value *)
| TRef (l : nat)                       (* stored by reference: variable [l] *)
| TArg (i n : nat)                     (* arg.hpp:13-33 *)
| TOp (o : op)                         (* an operation class *)
| TIf                                  (* core/if_else.hpp:13-27 *)
| TTuned (f : term) (p : pol)          (* policy/tuned_operation.hpp:13-26 *)
| TExpr (f : term) (ts : list term).   (* expression/expression.hpp:21-42, 79-99 *)
Arguments term : clear implicits.

Section Engine.
  Context {val ty op pol : Type}.
  Local Notation term := (term val op pol).
  Variable typeof : val -> ty.
  (** conversion to bool, if there is one *)
  Variable truth : val -> option bool.
  (** The static member evaluate of an operation. *)
  Variable prim : op -> list val -> outcome val.
  (** overload/overload.hpp:14-31: [overload<Op, Args...>::formula].  A type is
      None if it is not the type of a value (an operation or an expression). *)
  Variable formula : op -> list (option ty) -> option term.
  (** policy/policy.hpp:18-20: apply_policy where it exists. *)
  Variable apply_policy : op -> pol -> option term.

  (** operation/Operation.hpp, arg.hpp:35-36, expression.hpp:79-83 *)
  Fixpoint is_operation (t : term) : bool :=
    match t with
    | TVal _ | TRef _ => false
    | TArg _ _ | TOp _ | TIf | TTuned _ _ => true
    | TExpr _ ts => existsb is_operation ts
    end.

  (** overload/resolve_overload.hpp:15-55, overload/resolve_expression.hpp:15-59
      and policy/resolve_overload.hpp:15-41; [tys] is ArgsArray and [ps] the
      stack of policies.  An expression is taken apart only if all of its
      arguments are operations (otherwise is_overload_resolved_v in line 54 is
      ill-formed and the specialisation is discarded); its operation is resolved
      for the types of its arguments, which are not types of values (31).  An
      expression that is resolved already is not rebuilt (51-56), which gives
      the same. *)
  Fixpoint resolve (fuel : nat) (f : term) (tys : list (option ty)) (ps : list pol) : outcome term :=
    match fuel with
    | O => NoFuel
    | S fuel =>
        match f with
        | TTuned f p => resolve fuel f tys (p :: ps)
        | TExpr g ts =>
            if forallb is_operation ts then
              do ts' <- otraverse (fun t => resolve fuel t tys ps) ts;
              do g' <- resolve fuel g (map (fun _ => None) ts') ps;
              Ok (TExpr g' ts')
            else Ok f
        | TOp o =>
            match formula o tys with
            | Some f => resolve fuel f tys ps
            | None =>
                match ps with
                | [] => Ok f
                | p :: tail =>
                    if existsb (fun p => match apply_policy o p with Some _ => true | None => false end) ps
                    then resolve fuel (match apply_policy o p with Some f => f | None => f end) tys tail
                    else Ok f
                end
            end
        | _ => Ok f
        end
    end.

  (** expression.hpp:49-72, with arguments which are values.  An index out of
      range does not compile: UB stands for ill-formed here and below. *)
  Fixpoint pass (t : term) (vs : list val) : outcome term :=
    match t with
    | TVal _ | TRef _ => Ok t
    | TArg i n => if length vs =? n then match nth_error vs i with Some v => Ok (TVal v) | None => UB end else UB
    | TOp _ | TIf | TTuned _ _ => Ok (TExpr t (map TVal vs))
    | TExpr g ts =>
        if existsb is_operation ts then
          do ts' <- (fix go l := match l with [] => Ok [] | x :: l => do y <- pass x vs; do r <- go l; Ok (y :: r) end) ts;
          Ok (TExpr g ts')
        else Ok t
    end.

  (** expression/evaluate.hpp:32-62.  The types of the arguments are those of
      their values, as far as they have one.  Lines 40-47: only the arguments 1
      and 2 of if_else are not evaluated in advance. *)
  Definition type_of_result (o : outcome val) : option ty := match o with Ok v => Some (typeof v) | _ => None end.
  Fixpoint eval (fuel : nat) (st : nat -> val) (t : term) : outcome val :=
    match fuel with
    | O => NoFuel
    | S fuel =>
        match t with
        | TVal v => Ok v
        | TRef l => Ok (st l)
        | TExpr f ts =>
            let os := map (eval fuel st) ts in
            do f' <- resolve fuel f (map type_of_result os) [];
            match f' with
            | TIf =>                                        (* if_else.hpp:20-25 *)
                match os with
                | [c; a; b] => do c <- c; match truth c with Some true => a | Some false => b | None => UB end
                | _ => UB
                end
            | TOp o => do vs <- otraverse (fun x => x) os; prim o vs
            | TExpr _ _ =>                                  (* expression.hpp:89-92 *)
                if is_operation f' then
                  do vs <- otraverse (fun x => x) os; do t' <- pass f' vs; eval fuel st t'
                else UB
            | _ => UB
            end
        | _ => UB
        end
    end.

  (** expression.hpp:41-42 with value_if_cheap.hpp:11-28: how an argument given
      by the variable [l] is stored. *)
  Definition capture (is_copy_cheap : ty -> bool) (st : nat -> val) (l : nat) : term :=
    if is_copy_cheap (typeof (st l)) then TVal (st l) else TRef l.

  (** functional/parameter/out.hpp:122-126, 142-146: the source is converted to
      the type of the target (expression.hpp:30-36). *)
  Definition assign (fuel : nat) (st : nat -> val) (l : nat) (t : term) : outcome (nat -> val) :=
    do v <- eval fuel st t; Ok (fun x => if x =? l then v else st x).
End Engine.

(** ** Comparisons (numeric/comparison) *)
(** Floating point numbers are exact, integers are not bounded; ranges are
    vectors of floating point numbers; VConst is ac::constant. *)
(* The arguments and the operations used; std::is_arithmetic_v at numeric/arithmetic/*.hpp, cited at
   [evaluate] below (C++20). *)
Inductive value := VNum (q : Q) | VInt (z : Z) | VBool (b : bool) | VConst (z : Z) | VRange (l : list Q).
Inductive type := TyNum | TyInt | TyBool | TyConst | TyRange.
Definition type_of (v : value) : type :=
  match v with VNum _ => TyNum | VInt _ => TyInt | VBool _ => TyBool | VConst _ => TyConst | VRange _ => TyRange end.
Definition bool_of (v : value) : option bool := match v with VBool b => Some b | _ => None end.
(** std::is_arithmetic_v *)
(* The language and the standard library, used by the members at [evaluate]: subtract.hpp:37-40,
   ordering.hpp:23-26, equality.hpp:42-45. *)
Definition arithmetic (t : option type) : bool :=
  match t with Some TyNum | Some TyInt | Some TyBool => true | _ => false end.
Definition is_range (t : option type) : bool := match t with Some TyRange => true | _ => false end.

Inductive oper :=
| OSubtract | OSubtractScalars | ONot | ONotScalar | OAsInt | OAbs | OAbsScalar | OMultiply | OMultiplyScalars | OSquared
| OLess | OLessScalar | OGreater | OEqual | OEqualScalar | OCompare | OCompareScalar | OSgn | OSgnScalar
| OLexRange | OEqualRange (eps : option Q).
Definition texp := term value oper Q.

Definition number (v : value) : option Q :=
  match v with VNum q => Some q | VInt z | VConst z => Some (inject_Z z) | VBool b => Some (if b then 1 else 0)%Q | VRange _ => None end.
Definition qlt (a b : Q) : bool := negb (Qle_bool b a).
(** operator< of std::vector *)
(* The standard library at ordering.hpp:23-26; below it <, ==, + of numbers for subtract.hpp:37-40
   and equality.hpp:42-45. *)
Fixpoint vector_less (l r : list Q) : bool :=
  match l, r with
  | _, [] => false
  | [], _ :: _ => true
  | x :: l, y :: r => qlt x y || (negb (qlt y x) && vector_less l r)
  end.
Definition compare_numbers (x y : Q) : Z := (Z.b2z (qlt y x) - Z.b2z (qlt x y))%Z.
Definition close (eps : option Q) (x y : Q) : bool :=
  match eps with None => Qeq_bool x y | Some e => Qle_bool (Qabs (x - y)) e end.
Fixpoint equal_lists (f : Q -> Q -> bool) (l r : list Q) : bool :=
  match l, r with [], [] => true | x :: l, y :: r => f x y && equal_lists f l r | _, _ => false end.
Definition arith2 (fi : Z -> Z -> Z) (fq : Q -> Q -> Q) (l r : value) : outcome value :=
  match l, r with
  | VInt a, VInt b => Ok (VInt (fi a b))
  | _, _ => match number l, number r with Some a, Some b => Ok (VNum (fq a b)) | _, _ => UB end
  end.
(** The members evaluate; an operation without one does not compile. *)
(* Lines are cited case by case: add.hpp:44-52, subtract.hpp:37-40, multiply.hpp:41-49 and so on. *)
Definition evaluate (o : oper) (vs : list value) : outcome value :=
  match o, vs with
  | OSubtractScalars, [l; r] => arith2 Z.sub Qminus l r                       (* subtract.hpp:37-40 *)
  | OMultiplyScalars, [l; r] => arith2 Z.mul Qmult l r                        (* multiply.hpp *)
  | ONotScalar, [VBool b] => Ok (VBool (negb b))                              (* logical_not.hpp:30-32 *)
  | OAsInt, [VBool b] => Ok (VInt (Z.b2z b))                                  (* as.hpp:17-20 *)
  | OAbsScalar, [VInt z] => Ok (VInt (Z.abs z))                               (* abs.hpp:25-33 *)
  | OAbsScalar, [VNum q] => Ok (VNum (Qabs q))
  | OLessScalar, [VRange l; VRange r] => Ok (VBool (vector_less l r))         (* ordering.hpp:23-26 *)
  | OLessScalar, [l; r] => match number l, number r with Some a, Some b => Ok (VBool (qlt a b)) | _, _ => UB end
  | OEqualScalar, [l; r] => match number l, number r with Some a, Some b => Ok (VBool (Qeq_bool a b)) | _, _ => UB end   (* equality.hpp:42-45 *)
  | OLexRange, [VRange l; VRange r] => Ok (VInt (lex_compare_range compare_numbers l r))  (* lexicographical_compare_range.hpp:20-34 *)
  | OEqualRange eps, [VRange l; VRange r] => Ok (VBool (equal_lists (close eps) l r))     (* is_equal_range.hpp:19-29 *)
  | _, _ => UB
  end.

Definition x_ : texp := TArg 0 1.
Definition l_ : texp := TArg 0 2.
Definition r_ : texp := TArg 1 2.
(** ordering.hpp:59, 67 and equality.hpp:25 *)
Definition is_less_or_equal : texp := TExpr (TOp ONot) [TOp OGreater].
Definition is_greater_or_equal : texp := TExpr (TOp ONot) [TOp OLess].
Definition is_not_equal : texp := TExpr (TOp ONot) [TOp OEqual].
(** The formulas: registered overloads first, then the member formula.
    The inner operation of the comparisons of ranges is resolved in advance.
    With a wrong number of arguments nothing compiles. *)
(* Lines are cited case by case: subtract.hpp:30-42 and so on. *)
Definition formulas (o : oper) (tys : list (option type)) : option texp :=
  let arith := forallb arithmetic tys in
  let ranges := forallb is_range tys in
  match o, length tys with
  | OSubtract, 2%nat => if arith then Some (TOp OSubtractScalars) else None       (* subtract.hpp:30-42 *)
  | OMultiply, 2%nat => if arith then Some (TOp OMultiplyScalars) else None
  | ONot, 1%nat => if arith then Some (TOp ONotScalar) else None                  (* logical_not.hpp:24-34 *)
  | OAbs, 1%nat => if arith then Some (TOp OAbsScalar) else None                  (* abs.hpp:19-35 *)
  | OSquared, 1%nat => Some (TExpr (TOp OMultiply) [x_; x_])                          (* squared.hpp:17 *)
  | OLess, 2%nat => Some (if ranges then TExpr (TOp OLess) [TOp OCompare; TVal (VConst 0)]   (* lexicographical_compare_range.hpp:46-49 *)
                          else TOp OLessScalar)                                   (* ordering.hpp:35 *)
  | OGreater, 2%nat => Some (TExpr (TOp OLess) [r_; l_])                              (* ordering.hpp:48 *)
  | OEqual, 2%nat => if arith then Some (TOp OEqualScalar)                        (* equality.hpp:33-47 *)
                     else if ranges then Some (TOp (OEqualRange None)) else None  (* is_equal_range.hpp:32-37 *)
  | OCompare, 2%nat => Some (if ranges then TOp OLexRange else TOp OCompareScalar) (* lexicographical_compare_range.hpp:39-44, compare3way.hpp:30 *)
  | OCompareScalar, 2%nat =>                                                          (* compare3way.hpp:22 *)
      Some (TExpr (TOp OSubtract) [TExpr (TOp OAsInt) [TOp OGreater]; TExpr (TOp OAsInt) [TOp OLess]])
  | OSgn, 1%nat => if arith then Some (TOp OSgnScalar) else None                  (* sgn.hpp:20-28 *)
  | OSgnScalar, 1%nat => Some (TExpr (TOp OCompare) [x_; TVal (VConst 0)])            (* sgn.hpp:26 *)
  | _, _ => None
  end.
(** absolute_error.hpp:23-31, composite_operation.hpp:46-61; the policy is the
    epsilon.  The operation inside the lexicographical comparison is an
    expression already, to which no policy applies. *)
Definition absolute_error (o : oper) (eps : Q) : option texp :=
  match o with
  | OEqualScalar => Some (TExpr is_less_or_equal [TExpr (TOp OAbs) [TOp OSubtract]; TVal (VNum eps)])
  | OLessScalar => Some (TExpr (TOp OLess) [TVal (VNum eps); TExpr (TOp OSubtract) [r_; l_]])
  | OEqualRange None => Some (TOp (OEqualRange (Some eps)))
  | _ => None
  end.
(** The value of the expression [f(vs...)]. *)
(* expression/evaluate.hpp:32-62 with the operations above. *)
Definition evaluates (fuel : nat) (st : nat -> value) (t : texp) : outcome value :=
  eval type_of bool_of evaluate formulas absolute_error fuel st t.
Definition call (f : texp) (vs : list value) : texp := TExpr f (map TVal vs).
