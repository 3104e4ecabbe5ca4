(** Model of convert_to (include/actl/container/conversion/*.hpp) for integers, compile-time
    constants, tuples, vectors and arrays nested in any way.

    The conversion is chosen by the compiler from partial specializations of the class template
    conversion; the choice depends on the types only. [can1] is can_convert_to_v for one argument,
    [conv1] the function that is run: [None] when the chosen specialization does not compile.
    Simplified: bool, floating point numbers, references inside of tuples and std::pair are left
    out; the memory does not run out. *)
From Coq Require Import ZArith Bool List Lia.
From Verif Require Import Outcome IntTypes.
Import ListNotations.
Local Open Scope Z_scope.

Inductive ty :=
| TInt (t : ity)                  (* an integer type *)
| TConst (t : ity) (c : Z)        (* ac::constant with a value of the type *)
| TTup (ts : list ty)             (* std::tuple *)
| TVec (t : ty)                   (* std::vector *)
| TArr (n : nat) (t : ty).        (* std::array *)
(* Contents of objects of the types above, and the language: equality of types (std::is_same); no
   lines in /repo, C++20. *)
Inductive val := VInt (z : Z) | VUnit | VSeq (l : list val).

(** How an argument is passed: an rvalue, a reference, a reference to const. *)
(* The language ([expr], C++20). *)
Inductive qual := QVal | QRef | QCRef.

Definition ity_eqb (a b : ity) : bool := (bits a =? bits b) && Bool.eqb (sgn a) (sgn b).
Section ListEqb.
  Context {A : Type}.
  Variable eqb : A -> A -> bool.
  Fixpoint list_eqb (l r : list A) : bool :=
    match l, r with
    | [], [] => true
    | x :: l, y :: r => eqb x y && list_eqb l r
    | _, _ => false
    end.
End ListEqb.
Fixpoint ty_eqb (a b : ty) : bool :=
  match a, b with
  | TInt s, TInt t => ity_eqb s t
  | TConst s c, TConst t d => ity_eqb s t && (c =? d)
  | TTup ss, TTup ts => list_eqb ty_eqb ss ts
  | TVec s, TVec t => ty_eqb s t
  | TArr n s, TArr m t => (n =? m)%nat && ty_eqb s t
  | _, _ => false
  end.

(** The functions run by a conversion. *)
(* Operators on functions, used for the conversions of elements in between_ranges.hpp:48-67,
   from_range_to_tuple.hpp:20-58 and from_tuple.hpp:24-46. *)
Definition run := val -> outcome val.

(** Elementwise: all of the conversions are chosen, then applied to the elements in order. *)
Section Zip.
  Context {A B C : Type}.
  Variable f : A -> B -> C.
  (* between_ranges.hpp:48-67, from_range_to_tuple.hpp:20-58, from_tuple.hpp:24-46 *)
  Fixpoint zip (l : list A) (r : list B) : list C :=
    match l, r with
    | x :: l, y :: r => f x y :: zip l r
    | _, _ => []
    end.
End Zip.
Fixpoint all_some {A} (l : list (option A)) : option (list A) :=
  match l with
  | [] => Some []
  | None :: _ => None
  | Some x :: l => match all_some l with None => None | Some xs => Some (x :: xs) end
  end.
Fixpoint run_all (fs : list run) (vs : list val) : outcome (list val) :=
  match fs, vs with
  | f :: fs, v :: vs => do r <- f v; do rs <- run_all fs vs; Ok (r :: rs)
  | _, _ => Ok []
  end.
Definition elements (v : val) : list val := match v with VSeq l => l | _ => [] end.
(** A function for the elements becomes one for the sequence. *)
(* from_range_to_tuple.hpp:20-58, from_tuple.hpp:24-46 *)
Definition on_elements (fs : option (list run)) : option run :=
  match fs with
  | None => None
  | Some fs => Some (fun v => omap VSeq (run_all fs (elements v)))
  end.
(** The same function for every element of a sequence, whatever its length. *)
(* between_ranges.hpp:23-26, 48-67 *)
Definition on_each (f : option run) : option run :=
  match f with
  | None => None
  | Some f => Some (fun v => omap VSeq (run_all (map (fun _ => f) (elements v)) (elements v)))
  end.

(** * The standard library *)
(* The language: T{}, static_cast of integers; used at convert_to.hpp:18-33. *)
Fixpoint default_val (t : ty) : val :=
  match t with
  | TInt _ => VInt 0
  | TConst _ _ => VUnit
  | TTup ts => VSeq (map default_val ts)
  | TVec _ => VSeq []
  | TArr n t => VSeq (repeat (default_val t) n)
  end.
Definition int_of (s : ty) (v : val) : Z :=
  match s, v with TConst _ c, _ => c | _, VInt z => z | _, _ => 0 end.
Definition scalar (s : ty) : bool := match s with TInt _ | TConst _ _ => true | _ => false end.
Definition to_int (t : ity) (s : ty) : option run :=
  if scalar s then Some (fun v => Ok (VInt (wrap t (int_of s v)))) else None.

(** T(x) for [ex], as elements of a vector are made from the values of an iterator, and the implicit
    conversion otherwise. A vector is made from a number as a vector of that many default elements,
    only explicitly; a number above the greatest size throws. A tuple of one element is made from
    anything its element is made from, otherwise tuples are converted elementwise. *)
(* The standard library, used at between_ranges.hpp:23-26. *)
Fixpoint direct (ex : bool) (T : ty) (S : ty) : option run :=
  if ty_eqb T S then Some (fun v => Ok v)
  else match T with
  | TInt t => to_int t S
  | TConst _ _ => None
  | TVec T' =>
      if ex && scalar S
      then Some (fun v => let n := wrap size_type (int_of S v) in
                          if n <? 2 ^ 63 then Ok (VSeq (repeat (default_val T') (Z.to_nat n))) else Throw)
      else None
  | TArr _ _ => None
  | TTup ts =>
      let whole := match ts with
                   | [t] => match direct ex t S with
                            | None => None
                            | Some f => Some (fun v => omap (fun r => VSeq [r]) (f v))
                            end
                   | _ => None
                   end in
      match whole, S with
      | Some f, _ => Some f
      | None, TTup ss =>
          if (length ts =? length ss)%nat then on_elements (all_some (zip (direct ex) ts ss)) else None
      | None, _ => None
      end
  end.

(** x = y for an element x of an array: an assignment operator, or the one of the type of x after an
    implicit conversion. *)
(* The standard library, used by ranges::copy at between_ranges.hpp:29-46. *)
Fixpoint assign (T : ty) (S : ty) : option run :=
  if ty_eqb T S then Some (fun v => Ok v)
  else match T with
  | TInt t => to_int t S
  | TTup ts =>
      match S with
      | TTup ss => if (length ts =? length ss)%nat then on_elements (all_some (zip assign ts ss)) else None
      | _ => direct false T S
      end
  | _ => None
  end.

(** * Concepts *)
(** range/traits/strict_range.hpp:16-36: a range that is a tuple as well is strict when the types of
    its elements are the type of the range; for a const array they are const, and it is not. *)
Definition strict (q : qual) (S : ty) : bool :=
  match S with
  | TVec _ => true
  | TArr O _ => true
  | TArr _ _ => match q with QCRef => false | _ => true end
  | _ => false
  end.
(** meta/static_size.hpp:14-40 *)
Definition static_size (S : ty) : option nat :=
  match S with
  | TTup ts => Some (length ts)
  | TArr n _ => Some n
  | _ => None
  end.
(** meta/static_size.hpp:49-55 *)
Definition sizes_match (l r : option nat) : bool :=
  match l, r with Some a, Some b => (a =? b)%nat | _, _ => true end.
Definition is_tuple (S : ty) : bool := match S with TTup _ | TArr _ _ => true | _ => false end.
Definition elem (S : ty) : ty := match S with TVec t | TArr _ t => t | t => t end.
(** How the elements of a range are passed on (from_range_to_tuple.hpp:22, 35) *)
Definition elem_qual (q : qual) : qual := match q with QCRef => QCRef | _ => QRef end.
(** The elements of a tuple, or of a const array (from_tuple.hpp:17-22) *)
Definition unpack (S : ty) : list ty :=
  match S with TTup ss => ss | TArr n s => repeat s n | _ => [] end.

(** source == Target for a constant (to_constant.hpp:22): the operands are converted to a common
    type, unsigned when one of the widest is. *)
Definition common (a b : ity) : ity :=
  let a := promote a in let b := promote b in
  if bits a =? bits b then {| bits := bits a; sgn := sgn a && sgn b |}
  else if bits a <? bits b then b else a.
Definition equal_ints (s t : ity) (x y : Z) : bool := wrap (common s t) x =? wrap (common s t) y.

(** * can_convert_to_v *)
(** One argument. The specializations, from the most specific:
    - constants: to_constant.hpp:15-34
    - arithmetic targets: convert_to.hpp:26-33
    - ranges: between_ranges.hpp:48-67
    - from a range to a tuple: from_range_to_tuple.hpp:20-58
    - from a tuple: from_tuple.hpp:24-46
    - one argument for the only element: to_range.hpp:31-47, to_tuple.hpp:36-54 *)
Fixpoint can1 (T : ty) : qual -> ty -> bool :=
  fix can_from (q : qual) (S : ty) {struct S} : bool :=
  (* convert_to<T>(x...) for the elements of a tuple *)
  let many (ss : list ty) :=
    match T with
    | TVec T' => forallb (fun s => can1 T' QCRef s) ss
    | TArr n T' => (n =? length ss)%nat && forallb (fun s => can1 T' QCRef s) ss
    | TTup ts => (length ts =? length ss)%nat && forallb (fun b => b) (zip (fun t s => can1 t QCRef s) ts ss)
    | _ => false
    end in
  let from_tuple (_ : unit) :=
    match S with
    | TTup [] => true
    | TTup [s] => can_from QCRef s
    | TTup ss => many ss
    | TArr 1 s => can_from QCRef s
    | TArr n s => many (repeat s n)
    | _ => false
    end in
  match T with
  | TInt _ => scalar S
  | TConst t c =>
      match S with
      | TConst s d => match q with QVal => equal_ints t s c d | _ => true end
      | TInt _ => true
      | _ => false
      end
  | TVec T' =>
      if strict q S then true
      else if is_tuple S then from_tuple tt
      else can1 T' q S
  | TArr n T' =>
      if strict q S then
        if sizes_match (Some n) (static_size S) && match assign T' (elem S) with Some _ => true | None => false end then true
        else if sizes_match (Some n) (static_size S)
                && ((n =? 0)%nat || can1 T' (elem_qual q) (elem S)) then true
        else (n =? 1)%nat && can1 T' q S
      else if is_tuple S then from_tuple tt
      else (n =? 1)%nat && can1 T' q S
  | TTup ts =>
      let one (_ : unit) := match ts with [t] => can1 t q S | _ => false end in
      if strict q S then
        if sizes_match (Some (length ts)) (static_size S)
           && forallb (fun t => can1 t (elem_qual q) (elem S)) ts then true
        else negb (is_tuple S) && one tt
      else if is_tuple S then from_tuple tt
      else one tt
  end.

(** * convert_to *)
(** The only element of the result (to_range.hpp:21-25, to_tuple.hpp:25-30). *)
Definition single (f : option run) : option run :=
  match f with
  | None => None
  | Some f => Some (fun v => omap (fun r => VSeq [r]) (f v))
  end.
(** AC_ASSERT on the size, then the function. *)
(* between_ranges.hpp:29-46, from_range_to_tuple.hpp:40-58 *)
Definition checked (n : nat) (f : option run) : option run :=
  match f with
  | None => None
  | Some f => Some (fun v => assert_then (n =? length (elements v))%nat (f v))
  end.
(** The only element of the source (from_tuple.hpp:33-36). *)
Definition unwrap (f : option run) : option run :=
  match f with
  | None => None
  | Some f => Some (fun v => f (hd VUnit (elements v)))
  end.

Fixpoint conv1 (T : ty) : qual -> ty -> option run :=
  fix conv_from (q : qual) (S : ty) {struct S} : option run :=
  (* to_range.hpp:21-25, to_tuple.hpp:25-30 *)
  let many (ss : list ty) :=
    match T with
    | TVec T' => on_elements (all_some (map (fun s => conv1 T' QCRef s) ss))
    | TArr n T' => if (n =? length ss)%nat then on_elements (all_some (map (fun s => conv1 T' QCRef s) ss)) else None
    | TTup ts => if (length ts =? length ss)%nat then on_elements (all_some (zip (fun t s => conv1 t QCRef s) ts ss)) else None
    | _ => None
    end in
  (* from_tuple.hpp:33-36; without elements: convert_to.hpp:18-24 *)
  let from_tuple (_ : unit) :=
    match S with
    | TTup [] => Some (fun _ => Ok (default_val T))
    | TTup [s] => unwrap (conv_from QCRef s)
    | TTup ss => many ss
    | TArr 1 s => unwrap (conv_from QCRef s)
    | TArr n s => many (repeat s n)
    | _ => None
    end in
  match T with
  | TInt t => to_int t S                                      (* convert_to.hpp:29-32 *)
  | TConst t c =>                                             (* to_constant.hpp:20-33 *)
      match S with
      | TConst s d =>
          match q with
          | QVal => if equal_ints t s c d then Some (fun _ => Ok VUnit) else None
          | _ => Some (fun _ => assert_then (equal_ints s t d c) (Ok VUnit))
          end
      | TInt s => Some (fun v => assert_then (equal_ints s t (int_of S v) c) (Ok VUnit))
      | _ => None
      end
  | TVec T' =>
      if strict q S then on_each (direct true T' (elem S))    (* between_ranges.hpp:23-26 *)
      else if is_tuple S then from_tuple tt
      else single (conv1 T' q S)
  | TArr n T' =>
      if strict q S then
        if sizes_match (Some n) (static_size S) && match assign T' (elem S) with Some _ => true | None => false end
        then checked n (on_each (assign T' (elem S)))         (* between_ranges.hpp:37-45, copy.hpp:28-36 *)
        else if sizes_match (Some n) (static_size S)
                && ((n =? 0)%nat || can1 T' (elem_qual q) (elem S))
        then checked n (on_elements (all_some (map (fun _ => conv1 T' (elem_qual q) (elem S)) (repeat tt n))))
                                                              (* from_range_to_tuple.hpp:30-37 *)
        else single (conv1 T' q S)
      else if is_tuple S then from_tuple tt
      else single (conv1 T' q S)
  | TTup ts =>
      let one (_ : unit) := match ts with [t] => single (conv1 t q S) | _ => None end in
      if strict q S then
        if sizes_match (Some (length ts)) (static_size S)
           && forallb (fun t => can1 t (elem_qual q) (elem S)) ts
        then checked (length ts) (on_elements (all_some (map (fun t => conv1 t (elem_qual q) (elem S)) ts)))
        else one tt
      else if is_tuple S then from_tuple tt
      else one tt
  end.
