(** Specification of conversions of values between types: elementwise, a number standing for a
    sequence of one element. Nothing here refers to how the conversion is selected. *)
From Coq Require Import ZArith Bool List Lia.
From Verif Require Import Outcome IntTypes ConvModel.
Import ListNotations.
Local Open Scope Z_scope.

(** The types of the elements of a value of the type with [n] elements. *)
Definition elem_tys (T : ty) (n : nat) : option (list ty) :=
  match T with
  | TVec t => Some (repeat t n)
  | TArr k t => if (k =? n)%nat then Some (repeat t n) else None
  | TTup ts => if (length ts =? n)%nat then Some ts else None
  | _ => None
  end.

(** The values of a type. *)
Inductive has_ty : ty -> val -> Prop :=
| H_int t z : 0 < bits t -> in_ity t z -> has_ty (TInt t) (VInt z)
| H_const t c : 0 < bits t -> in_ity t c -> has_ty (TConst t c) VUnit
| H_seq S vs ss : elem_tys S (length vs) = Some ss -> has_tys ss vs -> has_ty S (VSeq vs)
with has_tys : list ty -> list val -> Prop :=
| H_nil : has_tys [] []
| H_cons s ss v vs : has_ty s v -> has_tys ss vs -> has_tys (s :: ss) (v :: vs).

(** [Elems T S v r]: [r] of type [T] has the elements of [v] of type [S]. *)
Inductive Elems : ty -> ty -> val -> val -> Prop :=
| E_int t s z : Elems (TInt t) (TInt s) (VInt z) (VInt (wrap t z))
| E_from_const t s c : Elems (TInt t) (TConst s c) VUnit (VInt (wrap t c))
| E_const t s c : Elems (TConst t c) (TInt s) (VInt c) VUnit
| E_const_const t s c : Elems (TConst t c) (TConst s c) VUnit VUnit
| E_wrap T S t v r : scalar S = true -> elem_tys T 1 = Some [t] -> Elems t S v r -> Elems T S v (VSeq [r])
| E_seq T S ts ss vs rs :
    elem_tys T (length vs) = Some ts -> elem_tys S (length vs) = Some ss -> Elemss ts ss vs rs ->
    Elems T S (VSeq vs) (VSeq rs)
with Elemss : list ty -> list ty -> list val -> list val -> Prop :=
| Es_nil : Elemss [] [] [] []
| Es_cons t ts s ss v vs r rs :
    Elems t s v r -> Elemss ts ss vs rs -> Elemss (t :: ts) (s :: ss) (v :: vs) (r :: rs).

Definition is_int (T : ty) : bool := match T with TInt _ => true | _ => false end.
(** A tuple or an array has another number of elements than one. *)
Definition not_single (T : ty) : Prop := static_size T <> Some 1%nat.

(** The pairs of types for which the conversion is elementwise:
    - signed constants are made from signed integers, unsigned from unsigned;
    - sequences with a static size do not have size one, tuples given are not empty;
    - a vector made from a vector or an array has the same type of the elements, or numbers. *)
Inductive plain : ty -> ty -> Prop :=
| P_int t S : plain (TInt t) S
| P_const t c s : sgn s = sgn t -> 0 < bits t -> in_ity t c -> plain (TConst t c) (TInt s)
| P_const_const t c s d : sgn s = sgn t -> 0 < bits t -> in_ity t c -> plain (TConst t c) (TConst s d)
| P_const_seq t c S : scalar S = false -> plain (TConst t c) S
| P_wrap T S : scalar T = false -> scalar S = true ->
    (forall t, elem_tys T 1 = Some [t] -> plain t S) -> plain T S
| P_same T : plain (TVec T) (TVec T)
| P_seq T S : scalar T = false -> scalar S = false ->
    not_single T -> not_single S -> S <> TTup [] ->
    (forall T', T = TVec T' -> (forall ss, S <> TTup ss) ->
                T' = elem S \/ (is_int T' = true /\ scalar (elem S) = true)) ->
    (forall n ts ss i t s, elem_tys T n = Some ts -> elem_tys S n = Some ss ->
                           nth_error ts i = Some t -> nth_error ss i = Some s -> plain t s) ->
    plain T S.
