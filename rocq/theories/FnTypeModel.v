(** Traits of function types and qualifiers (functional/traits, core/qualifiers).
    Types are data; a template is a function on them, and [None] stands for an
    ill-formed instantiation.  Simplified: no arrays, no bit-exact [void] rules,
    names stand for classes where a class is required. *)
From Coq Require Import List Bool PeanoNat.
Import ListNotations.

(** Qualifiers of a member function: const, volatile, & or &&. *)
(* The language ([dcl.fct], C++20). *)
Inductive refq := RNone | RL | RR.
Record quals := Q { q_c : bool; q_v : bool; q_r : refq }.
Definition noq : quals := Q false false RNone.
(** The first two flags of an object type are its own const and volatile.
    [TFun] may have member qualifiers, as in [void() const]. *)
(* The language ([basic.compound], C++20). *)
Inductive ty : Set :=
| TName (c v : bool) (n : nat)
| TPtr (c v : bool) (t : ty)
| TLRef (t : ty)
| TRRef (t : ty)
| TFun (r : ty) (ps : list ty) (va ne : bool) (q : quals)
| TMemFun (c v : bool) (cls : nat) (r : ty) (ps : list ty) (va ne : bool) (q : quals)
| TMemData (c v : bool) (cls : nat) (t : ty).

(** ** The language: qualifiers are ignored on references and functions, and
    references collapse. *)
(* std::is_const and so on ([meta], C++20); used by meta/type/*.hpp and meta/function/*.hpp. *)
Definition is_const (t : ty) : bool :=
  match t with TName c _ _ | TPtr c _ _ | TMemFun c _ _ _ _ _ _ _ | TMemData c _ _ _ => c | _ => false end.
Definition is_volatile (t : ty) : bool :=
  match t with TName _ v _ | TPtr _ v _ | TMemFun _ v _ _ _ _ _ _ | TMemData _ v _ _ => v | _ => false end.
Definition set_const (b : bool) (t : ty) : ty :=
  match t with
  | TName _ v n => TName b v n
  | TPtr _ v x => TPtr b v x
  | TMemFun _ v k r ps va ne q => TMemFun b v k r ps va ne q
  | TMemData _ v k x => TMemData b v k x
  | _ => t
  end.
Definition set_volatile (b : bool) (t : ty) : ty :=
  match t with
  | TName c _ n => TName c b n
  | TPtr c _ x => TPtr c b x
  | TMemFun c _ k r ps va ne q => TMemFun c b k r ps va ne q
  | TMemData c _ k x => TMemData c b k x
  | _ => t
  end.
Definition add_const := set_const true.
Definition add_volatile := set_volatile true.
Definition remove_const := set_const false.
Definition remove_volatile := set_volatile false.
Definition is_lref (t : ty) : bool := match t with TLRef _ => true | _ => false end.
Definition is_rref (t : ty) : bool := match t with TRRef _ => true | _ => false end.
Definition is_ref (t : ty) : bool := is_lref t || is_rref t.
Definition lref (t : ty) : ty := match t with TLRef x | TRRef x => TLRef x | _ => TLRef t end.
Definition rref (t : ty) : ty := match t with TLRef x => TLRef x | TRRef x => TRRef x | _ => TRRef t end.
Definition remove_reference (t : ty) : ty := match t with TLRef x | TRRef x => x | _ => t end.
Definition remove_cvref (t : ty) : ty := remove_volatile (remove_const (remove_reference t)).
(** The type of a parameter in a function type: without its own const and
    volatile, a function as a pointer. *)
(* The language ([dcl.fct], C++20). *)
Definition param (t : ty) : ty :=
  match t with TFun _ _ _ _ _ => TPtr false false t | _ => remove_volatile (remove_const t) end.

(** ** core/qualifiers *)
(** copy.hpp:13-16, 54-67 *)
Fixpoint copy_reference (target source : ty) : ty :=
  match target with
  | TLRef x | TRRef x => copy_reference x source
  | _ => match source with TLRef _ => lref target | TRRef _ => rref target | _ => target end
  end.
(** copy.hpp:20-23, 69-75: the specialization for a const target drops the
    const and starts over. *)
Definition copy_const (target source : ty) : ty :=
  let target := if is_const target then remove_const target else target in
  if is_const source then add_const target else target.
(** copy.hpp:27-30, 77-84 *)
Definition copy_volatile (target source : ty) : ty :=
  let target := if is_volatile target then remove_volatile target else target in
  if is_volatile source then add_volatile target else target.
(** copy.hpp:34-37 *)
Definition copy_cv (target source : ty) : ty := copy_const (copy_volatile target source) source.
(** copy.hpp:41-48 *)
Definition copy_cvref (target source : ty) : ty :=
  copy_reference (copy_cv (remove_reference target) (remove_reference source)) source.
(** detection.hpp:17-20 *)
Definition has_qualifiers (t : ty) : bool := is_ref t || is_const t || is_volatile t.
(** inner.hpp:15-18, 60-67 *)
Definition add_inner_const (t : ty) : ty :=
  match t with TLRef x => TLRef (add_const x) | TRRef x => TRRef (add_const x) | _ => add_const t end.
(** inner.hpp:22-25, 69-76: the specializations ask for a const referent, other
    references go to std::remove_const, which leaves them. *)
Definition remove_inner_const (t : ty) : ty :=
  match t with
  | TLRef x => if is_const x then TLRef (remove_const x) else remove_const t
  | TRRef x => if is_const x then TRRef (remove_const x) else remove_const t
  | _ => remove_const t
  end.
(** inner.hpp:31-34, 78-85 *)
Definition add_inner_volatile (t : ty) : ty :=
  match t with TLRef x => TLRef (add_volatile x) | TRRef x => TRRef (add_volatile x) | _ => add_volatile t end.
(** inner.hpp:38-41, 87-94 *)
Definition remove_inner_volatile (t : ty) : ty :=
  match t with
  | TLRef x => if is_volatile x then TLRef (remove_volatile x) else remove_volatile t
  | TRRef x => if is_volatile x then TRRef (remove_volatile x) else remove_volatile t
  | _ => remove_volatile t
  end.
(** inner.hpp:47-54 *)
Definition add_inner_cv (t : ty) : ty := add_inner_const (add_inner_volatile t).
Definition remove_inner_cv (t : ty) : ty := remove_inner_const (remove_inner_volatile t).

(** ** functional/traits *)
(** function_traits.hpp:18-27 *)
Inductive category := CFree | CMember | CObject.
Record traits := { tr_cat : category; tr_ret : ty; tr_ps : list ty; tr_ups : option (list ty); tr_va : bool; tr_ne : bool }.
(** [Class CV_REF] of MemberFunction.hpp:91-94 *)
Definition class_with (cls : nat) (q : quals) : ty :=
  let t := TName (q_c q) (q_v q) cls in
  match q_r q with RNone => t | RL => lref t | RR => rref t end.
(** MemberFunction.hpp:75-79 *)
Definition class_t (t : ty) : ty := if is_ref t then t else lref t.
(** MemberFunction.hpp:84-97 *)
Definition member_traits (cls : nat) (r : ty) (ps : list ty) (va ne : bool) (q : quals) : traits :=
  {| tr_cat := CMember; tr_ret := r; tr_ps := class_t (class_with cls q) :: ps;
     tr_ups := Some (class_with cls q :: ps); tr_va := va; tr_ne := ne |}.
(** FreeFunction.hpp:47-57 *)
Definition free_traits (r : ty) (ps : list ty) (va ne : bool) : traits :=
  {| tr_cat := CFree; tr_ret := r; tr_ps := ps; tr_ups := None; tr_va := va; tr_ne := ne |}.
(** FunctionObject.hpp:36-51; the member function pointer is [&T::operator()]. *)
Definition object_traits (op : ty) : option traits :=
  match op with
  | TMemFun false false cls r ps va ne q =>
      let m := member_traits cls r ps va ne q in
      Some {| tr_cat := CObject; tr_ret := tr_ret m; tr_ps := skipn 1 (tr_ps m); tr_ups := None; tr_va := tr_va m; tr_ne := tr_ne m |}
  | _ => None
  end.
Definition no_quals (q : quals) : bool :=
  match q with Q false false RNone => true | _ => false end.
(** The choice of a specialization.  [env] gives the type of [&C::operator()]
    for the classes with one such function.
    function_traits.hpp:30-35 (references), FreeFunction.hpp:32-36 (const,
    pointers), MemberFunction.hpp:42-43 (const), FunctionObject.hpp:35-36.
    No specialization fits a volatile pointer nor a function with member
    qualifiers. *)
Fixpoint function_traits (env : nat -> option ty) (t : ty) : option traits :=
  match t with
  | TLRef x | TRRef x => function_traits env x
  | TName _ _ n => match env n with Some op => object_traits op | None => None end
  | TPtr _ false x => match function_traits env x with
                      | Some tr => match tr_cat tr with CFree => Some tr | _ => None end
                      | None => None
                      end
  | TPtr _ true _ => None
  | TFun r ps va ne q => if no_quals q then Some (free_traits r ps va ne) else None
  | TMemFun _ false cls r ps va ne q => Some (member_traits cls r ps va ne q)
  | TMemFun _ true _ _ _ _ _ _ => None
  | TMemData _ _ _ _ => None
  end.
(** FreeFunction.hpp:27-28, MemberFunction.hpp:35-37, FunctionObject.hpp:25-31 *)
Definition FreeFunction env t : bool := match function_traits env t with Some tr => match tr_cat tr with CFree => true | _ => false end | None => false end.
Definition MemberFunction env t : bool := match function_traits env t with Some tr => match tr_cat tr with CMember => true | _ => false end | None => false end.
Definition FunctionObject (env : nat -> option ty) (t : ty) : bool := match t with TName _ _ n => match env n with Some _ => true | None => false end | _ => false end.

(** The class and its qualifiers in [Class CV_REF]. *)
(* MemberFunction.hpp:91-94 *)
Definition split_class (t : ty) : option (nat * quals) :=
  match t with
  | TName c v n => Some (n, Q c v RNone)
  | TLRef (TName c v n) => Some (n, Q c v RL)
  | TRRef (TName c v n) => Some (n, Q c v RR)
  | _ => None
  end.
(** assemble_function.hpp:13-33, FreeFunction.hpp:59-67, MemberFunction.hpp:99-108 *)
Definition assemble (c : category) (r : ty) (ps : list ty) (va ne : bool) : option ty :=
  match c with
  | CFree => Some (TFun r (map param ps) va ne noq)
  | CMember => match ps with
               | cl :: ps => match split_class cl with
                             | Some (n, q) => Some (TMemFun false false n r (map param ps) va ne q)
                             | None => None
                             end
               | [] => None
               end
  | CObject => None
  end.
Definition obind {A B} (o : option A) (f : A -> option B) : option B := match o with Some a => f a | None => None end.
(** parameters.hpp:31-48 *)
Definition unique_parameters (tr : traits) : list ty := match tr_ups tr with Some ps => ps | None => tr_ps tr end.
(** assemble_function.hpp:36-48 *)
Definition as_free_function env t : option ty :=
  obind (function_traits env t) (fun tr => assemble CFree (tr_ret tr) (tr_ps tr) (tr_va tr) (tr_ne tr)).
(** noexcept.hpp:19-43 *)
Definition add_noexcept env t : option ty :=
  obind (function_traits env t) (fun tr => assemble (tr_cat tr) (tr_ret tr) (unique_parameters tr) (tr_va tr) true).
Definition remove_noexcept env t : option ty :=
  obind (function_traits env t) (fun tr => assemble (tr_cat tr) (tr_ret tr) (unique_parameters tr) (tr_va tr) false).
(** variadic_arguments.hpp:20-46 *)
Definition add_variadic env t : option ty :=
  obind (function_traits env t) (fun tr => assemble (tr_cat tr) (tr_ret tr) (unique_parameters tr) true (tr_ne tr)).
Definition remove_variadic env t : option ty :=
  obind (function_traits env t) (fun tr => assemble (tr_cat tr) (tr_ret tr) (unique_parameters tr) false (tr_ne tr)).
(** return.hpp:19-28 *)
Definition with_return_type env t r : option ty :=
  obind (function_traits env t) (fun tr => assemble (tr_cat tr) r (unique_parameters tr) (tr_va tr) (tr_ne tr)).
(** return.hpp:29-37: of a list of parameters *)
Definition with_return_type_list ps r : option ty := assemble CFree r ps false false.
(** member_traits.hpp:50-83 *)
Definition modify_class env t (m : ty -> ty) : option ty :=
  obind (function_traits env t) (fun tr =>
    match tr_cat tr, unique_parameters tr with
    | CMember, cl :: ps => assemble CMember (tr_ret tr) (m cl :: ps) (tr_va tr) (tr_ne tr)
    | _, _ => None
    end).
(** member_qualifiers.hpp:15-86 *)
Definition unique_class env t : option ty :=
  obind (function_traits env t) (fun tr => match tr_cat tr, unique_parameters tr with CMember, cl :: _ => Some cl | _, _ => None end).
Definition has_member_qualifiers env t := option_map has_qualifiers (unique_class env t).
Definition is_const_member env t := option_map (fun c => is_const (remove_reference c)) (unique_class env t).
Definition is_volatile_member env t := option_map (fun c => is_volatile (remove_reference c)) (unique_class env t).
Definition is_reference_member env t := option_map is_ref (unique_class env t).
Definition is_lvalue_reference_member env t := option_map is_lref (unique_class env t).
Definition is_rvalue_reference_member env t := option_map is_rref (unique_class env t).
Definition add_member_const env t := modify_class env t add_inner_const.
Definition remove_member_const env t := modify_class env t remove_inner_const.
Definition add_member_volatile env t := modify_class env t add_inner_volatile.
Definition remove_member_volatile env t := modify_class env t remove_inner_volatile.
Definition add_member_cv env t := modify_class env t add_inner_cv.
Definition remove_member_cv env t := modify_class env t remove_inner_cv.
Definition remove_member_reference env t := modify_class env t remove_reference.
Definition add_member_lvalue_reference env t := modify_class env t lref.
Definition add_member_rvalue_reference env t := modify_class env t rref.
(** member_traits.hpp:41-48: both specializations fit a member function, the
    second is more specialized. *)
Definition class_of env t : option ty :=
  match t with
  | TMemFun false false cls _ _ _ _ _ => Some (TName false false cls)
  | TMemData false false cls _ => Some (TName false false cls)
  | _ => obind (function_traits env t) (fun tr => match tr_cat tr, tr_ps tr with CMember, cl :: _ => Some (remove_cvref cl) | _, _ => None end)
  end.
(** [T Class::*] *)
(* The language ([dcl.mptr], C++20), used at member_traits.hpp:26-37. *)
Definition member_pointer (t cls : ty) : option ty :=
  match cls with
  | TName _ _ n => match t with
                   | TLRef _ | TRRef _ => None
                   | TFun r ps va ne q => Some (TMemFun false false n r ps va ne q)
                   | _ => Some (TMemData false false n t)
                   end
  | _ => None
  end.
(** member_traits.hpp:26-37, 85-105 *)
Definition as_member_of env t cls : option ty :=
  match function_traits env t with
  | Some tr => match tr_cat tr with
               | CFree => assemble CMember (tr_ret tr) (cls :: tr_ps tr) (tr_va tr) (tr_ne tr)
               | CMember => modify_class env t (fun c => copy_cvref cls c)
               | CObject => member_pointer t cls
               end
  | None => member_pointer t cls
  end.
