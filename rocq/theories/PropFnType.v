(** Function types: C117. *)
From Coq Require Import List Bool PeanoNat.
From Verif Require Import FnTypeModel.
Import ListNotations.

(** ** Specification *)
(** Parameters as they appear in function types: without const and volatile of
    their own, and not functions. *)
Definition is_param (t : ty) : Prop :=
  is_const t = false /\ is_volatile t = false /\ match t with TFun _ _ _ _ _ => False | _ => True end.
(** A function type, behind references and pointers that are not volatile. *)
Inductive leads_to_function : ty -> ty -> Prop :=
| lf_fun r ps va ne : leads_to_function (TFun r ps va ne noq) (TFun r ps va ne noq)
| lf_lref t f : leads_to_function t f -> leads_to_function (TLRef t) f
| lf_rref t f : leads_to_function t f -> leads_to_function (TRRef t) f
| lf_ptr c t f : leads_to_function t f -> leads_to_function (TPtr c false t) f.
(** What can be called as [f(args)] without being an object of a class: a
    function, a pointer to it, or a reference to one of them. *)
Definition plain_function (t : ty) : bool := match t with TFun _ _ _ _ q => no_quals q | _ => false end.
Definition callable (t : ty) : bool :=
  match remove_reference t with
  | TFun _ _ _ _ q => no_quals q
  | TPtr _ _ f => plain_function f
  | _ => false
  end.
Definition operators_are_members (env : nat -> option ty) := forall n t, env n = Some t -> exists cls r ps va ne q, t = TMemFun false false cls r ps va ne q.

Lemma param_id t : is_param t -> param t = t.
Proof. destruct t as [[] []|[] []| | | |[] []|[] []]; intros (A & B & C); try easy; cbn in *; discriminate. Qed.
Lemma map_param_id ps : Forall is_param ps -> map param ps = ps.
Proof. induction 1 as [|t ps Ht _ IH]; [reflexivity|]. cbn. now rewrite IH, param_id. Qed.
Lemma split_class_with cls q : split_class (class_with cls q) = Some (cls, q).
Proof. now destruct q as [c v []]. Qed.
Lemma no_quals_eq q : no_quals q = true -> q = noq.
Proof. now destruct q as [[] [] []]. Qed.

(** ** Traits and assembling are inverse *)
(** C117.  The traits of a function type determine it: assembling them again
    gives the same type. *)
Theorem C117_free_round_trip : forall env r ps va ne, Forall is_param ps ->
  exists tr, function_traits env (TFun r ps va ne noq) = Some tr /\ tr_cat tr = CFree /\
    tr_ret tr = r /\ tr_ps tr = ps /\ tr_va tr = va /\ tr_ne tr = ne /\
    assemble (tr_cat tr) (tr_ret tr) (unique_parameters tr) (tr_va tr) (tr_ne tr) = Some (TFun r ps va ne noq).
Proof. intros. eexists. split; [reflexivity|]. repeat (split; [reflexivity|]). cbn. now rewrite map_param_id. Qed.
Print Assumptions C117_free_round_trip.
Theorem C117_member_round_trip : forall env cls r ps va ne q, Forall is_param ps ->
  exists tr, function_traits env (TMemFun false false cls r ps va ne q) = Some tr /\ tr_cat tr = CMember /\
    tr_ret tr = r /\ tr_va tr = va /\ tr_ne tr = ne /\
    tr_ps tr = (match q_r q with RR => TRRef (TName (q_c q) (q_v q) cls) | _ => TLRef (TName (q_c q) (q_v q) cls) end) :: ps /\
    assemble (tr_cat tr) (tr_ret tr) (unique_parameters tr) (tr_va tr) (tr_ne tr) = Some (TMemFun false false cls r ps va ne q).
Proof.
  intros. eexists. split; [reflexivity|]. repeat (split; [reflexivity|]). split.
  - now destruct q as [c v []].
  - cbn -[split_class class_with]. now rewrite split_class_with, map_param_id.
Qed.
Print Assumptions C117_member_round_trip.
(** Different free functions or member functions have different traits. *)
Theorem C117_traits_injective : forall env s t,
  (exists r ps va ne, s = TFun r ps va ne noq) \/ (exists cls r ps va ne q, s = TMemFun false false cls r ps va ne q) ->
  (exists r ps va ne, t = TFun r ps va ne noq) \/ (exists cls r ps va ne q, t = TMemFun false false cls r ps va ne q) ->
  function_traits env s = function_traits env t -> s = t.
Proof.
  intros env s t [(r & ps & va & ne & ->)|(cls & r & ps & va & ne & q & ->)] [(r' & ps' & va' & ne' & ->)|(cls' & r' & ps' & va' & ne' & q' & ->)] E;
    cbn in E; try discriminate.
  - now injection E as -> -> -> ->.
  - assert (class_with cls q = class_with cls' q') as Ec by now injection E.
    assert (Some (cls, q) = Some (cls', q')) as X by now rewrite <- !split_class_with, Ec.
    injection X as <- <-. injection E. intros. now subst.
Qed.
Print Assumptions C117_traits_injective.
(** The number and kinds of parameters of a function object are those of its
    operator(). *)
Theorem C117_object : forall env c v n cls r ps va ne q, env n = Some (TMemFun false false cls r ps va ne q) ->
  function_traits env (TName c v n) = Some {| tr_cat := CObject; tr_ret := r; tr_ps := ps; tr_ups := None; tr_va := va; tr_ne := ne |} /\
  FunctionObject env (TName c v n) = true /\ FreeFunction env (TName c v n) = false /\ MemberFunction env (TName c v n) = false.
Proof. intros * E. unfold FreeFunction, MemberFunction, FunctionObject. cbn. rewrite E. cbn. easy. Qed.
Print Assumptions C117_object.

(** ** Which types are functions *)
Theorem C117_free_function : forall env t, operators_are_members env ->
  FreeFunction env t = true <-> exists f, leads_to_function t f.
Proof.
  intros env t U. split.
  - intro H. assert (exists tr, function_traits env t = Some tr /\ tr_cat tr = CFree) as X.
    { unfold FreeFunction in H. destruct (function_traits env t) as [tr|]; [|discriminate]. exists tr. split; [reflexivity|]. now destruct (tr_cat tr). }
    clear H. induction t as [c v n|c v t IH|t IH|t IH|r IHr ps va ne q|c v cls r IHr ps va ne q|c v cls t IH]; destruct X as (tr & E & C); cbn in E.
    + destruct (env n) as [op|] eqn:En; [|discriminate]. destruct (U n op En) as (cls & r & ps & va & ne & q & ->). injection E as <-. discriminate C.
    + destruct v; [discriminate|]. destruct (function_traits env t) as [tr'|]; [|discriminate].
      destruct IH as (f & Hf); [|exists f; now constructor]. exists tr'. split; [reflexivity|]. now destruct (tr_cat tr').
    + destruct IH as (f & Hf); [now exists tr | exists f; now constructor].
    + destruct IH as (f & Hf); [now exists tr | exists f; now constructor].
    + destruct (no_quals q) eqn:Q; [|discriminate]. apply no_quals_eq in Q as ->. eexists. constructor.
    + destruct v; [discriminate|]. injection E as <-. discriminate C.
    + discriminate.
  - intros (f & H). assert (exists tr, function_traits env t = Some tr /\ tr_cat tr = CFree) as (tr & E & C).
    { induction H as [r ps va ne|t f H (tr & E & C)|t f H (tr & E & C)|c t f H (tr & E & C)].
      - eexists. split; reflexivity.
      - now exists tr.
      - now exists tr.
      - exists tr. cbn. rewrite E, C. easy. }
    unfold FreeFunction. now rewrite E, C.
Qed.
Print Assumptions C117_free_function.
(** The traits are those of the function behind the references and pointers. *)
Theorem C117_same_traits : forall env t f, leads_to_function t f -> function_traits env t = function_traits env f.
Proof.
  intros env t f H. assert (forall r ps va ne, f = TFun r ps va ne noq -> function_traits env t = function_traits env f) as G.
  { induction H as [|t f H IH|t f H IH|c t f H IH]; intros * E; subst.
    - reflexivity.
    - cbn [function_traits]. now apply (IH _ _ _ _ eq_refl).
    - cbn [function_traits]. now apply (IH _ _ _ _ eq_refl).
    - cbn [function_traits]. rewrite (IH _ _ _ _ eq_refl). reflexivity. }
  assert (exists r ps va ne, f = TFun r ps va ne noq) as (r & ps & va & ne & E) by (clear G; induction H; eauto).
  now apply (G r ps va ne).
Qed.
Print Assumptions C117_same_traits.
(** Everything callable without a volatile pointer is a free function ... *)
Theorem C117_callable : forall env t, callable t = true -> is_volatile (remove_reference t) = false -> FreeFunction env t = true.
Proof.
  intros env t H V. unfold FreeFunction, callable in *.
  assert (function_traits env t = function_traits env (remove_reference t)) as -> by now destruct t.
  destruct (remove_reference t) as [|c v f| | |r ps va ne q| |]; try discriminate.
  - cbn in V. subst v. destruct f as [| | | |r ps va ne q| |]; try discriminate. apply no_quals_eq in H as ->. reflexivity.
  - apply no_quals_eq in H as ->. reflexivity.
Qed.
Print Assumptions C117_callable.
(** ... but a volatile function pointer, which can be called, is not, and a
    pointer to a function pointer, which cannot, is. *)
Theorem C117_callable_refuted : forall env,
  (exists t, callable t = true /\ FreeFunction env t = false) /\ (exists t, callable t = false /\ FreeFunction env t = true).
Proof.
  intro env. set (f := TFun (TName false false 0) [] false false noq). split.
  - exists (TPtr false true f). split; reflexivity.
  - exists (TPtr false false (TPtr false false f)). split; reflexivity.
Qed.
Print Assumptions C117_callable_refuted.
Theorem C117_member_function : forall env t, operators_are_members env ->
  MemberFunction env t = true <-> exists c cls r ps va ne q,
    let m := TMemFun c false cls r ps va ne q in
    exists refs : list bool, t = fold_right (fun b t => if b : bool then TLRef t else TRRef t) m refs.
Proof.
  intros env t U. split.
  - intro H. assert (exists tr, function_traits env t = Some tr /\ tr_cat tr = CMember) as X.
    { unfold MemberFunction in H. destruct (function_traits env t) as [tr|]; [|discriminate]. exists tr. split; [reflexivity|]. now destruct (tr_cat tr). }
    clear H. induction t as [c v n|c v t IH|t IH|t IH|r IHr ps va ne q|c v cls r IHr ps va ne q|c v cls t IH]; destruct X as (tr & E & C); cbn in E.
    + destruct (env n) as [op|] eqn:En; [|discriminate]. destruct (U n op En) as (cls & r & ps & va & ne & q & ->). injection E as <-. discriminate C.
    + destruct v; [discriminate|]. destruct (function_traits env t) as [tr'|]; [|discriminate].
      destruct (tr_cat tr') eqn:C'; [|discriminate | discriminate]. injection E as <-. congruence.
    + destruct IH as (c & cls & r & ps & va & ne & q & refs & ->); [now exists tr|].
      exists c, cls, r, ps, va, ne, q. now exists (true :: refs).
    + destruct IH as (c & cls & r & ps & va & ne & q & refs & ->); [now exists tr|].
      exists c, cls, r, ps, va, ne, q. now exists (false :: refs).
    + destruct (no_quals q); [|discriminate]. injection E as <-. discriminate C.
    + destruct v; [discriminate|]. exists c, cls, r, ps, va, ne, q. now exists [].
    + discriminate.
  - intros (c & cls & r & ps & va & ne & q & refs & ->). unfold MemberFunction.
    assert (function_traits env (fold_right (fun b t => if b : bool then TLRef t else TRRef t) (TMemFun c false cls r ps va ne q) refs) =
      Some (member_traits cls r ps va ne q)) as ->; [|reflexivity].
    induction refs as [|[] refs IH]; [reflexivity | exact IH | exact IH].
Qed.
Print Assumptions C117_member_function.
(** A function object counts as such even if its qualifiers do not let its
    operator() be called. *)
Definition object_callable (c v : bool) (op : ty) : bool :=
  match op with TMemFun _ _ _ _ _ _ _ q => implb c (q_c q) && implb v (q_v q) | _ => false end.
Theorem C117_const_object_refuted : exists env n op, env n = Some op /\
  FunctionObject env (TName true false n) = true /\ object_callable true false op = false.
Proof.
  set (op := TMemFun false false 7 (TName false false 0) [] false false noq).
  exists (fun n => if n =? 7 then Some op else None), 7, op. repeat split.
Qed.
Print Assumptions C117_const_object_refuted.

(** ** Changing one property of a function *)
Theorem C117_modify_free : forall env t r ps va ne, leads_to_function t (TFun r ps va ne noq) -> Forall is_param ps ->
  add_noexcept env t = Some (TFun r ps va true noq) /\ remove_noexcept env t = Some (TFun r ps va false noq) /\
  add_variadic env t = Some (TFun r ps true ne noq) /\ remove_variadic env t = Some (TFun r ps false ne noq) /\
  (forall r', with_return_type env t r' = Some (TFun r' ps va ne noq)) /\
  as_free_function env t = Some (TFun r ps va ne noq) /\
  (forall c v n, as_member_of env t (TName c v n) = Some (TMemFun false false n r ps va ne (Q c v RNone))).
Proof.
  intros * H P. apply (C117_same_traits env) in H.
  unfold add_noexcept, remove_noexcept, add_variadic, remove_variadic, with_return_type, as_free_function, as_member_of. rewrite H.
  cbn. rewrite (map_param_id ps P). easy.
Qed.
Print Assumptions C117_modify_free.
Theorem C117_modify_member : forall env c cls r ps va ne q, Forall is_param ps ->
  let t := TMemFun c false cls r ps va ne q in
  let m va ne r q := Some (TMemFun false false cls r ps va ne q) in
  add_noexcept env t = m va true r q /\ remove_noexcept env t = m va false r q /\
  add_variadic env t = m true ne r q /\ remove_variadic env t = m false ne r q /\
  (forall r', with_return_type env t r' = m va ne r' q) /\
  add_member_const env t = m va ne r (Q true (q_v q) (q_r q)) /\ remove_member_const env t = m va ne r (Q false (q_v q) (q_r q)) /\
  add_member_volatile env t = m va ne r (Q (q_c q) true (q_r q)) /\ remove_member_volatile env t = m va ne r (Q (q_c q) false (q_r q)) /\
  add_member_cv env t = m va ne r (Q true true (q_r q)) /\ remove_member_cv env t = m va ne r (Q false false (q_r q)) /\
  remove_member_reference env t = m va ne r (Q (q_c q) (q_v q) RNone) /\
  add_member_lvalue_reference env t = m va ne r (Q (q_c q) (q_v q) RL) /\
  add_member_rvalue_reference env t = m va ne r (Q (q_c q) (q_v q) (match q_r q with RL => RL | _ => RR end)).
Proof.
  intros * P. cbv zeta.
  unfold add_noexcept, remove_noexcept, add_variadic, remove_variadic, with_return_type, add_member_const, remove_member_const,
    add_member_volatile, remove_member_volatile, add_member_cv, remove_member_cv, remove_member_reference,
    add_member_lvalue_reference, add_member_rvalue_reference, modify_class.
  destruct q as [[] [] []]; cbn; rewrite (map_param_id ps P); easy.
Qed.
Print Assumptions C117_modify_member.
Theorem C117_member_queries : forall env c cls r ps va ne q,
  let t := TMemFun c false cls r ps va ne q in
  is_const_member env t = Some (q_c q) /\ is_volatile_member env t = Some (q_v q) /\
  is_lvalue_reference_member env t = Some (match q_r q with RL => true | _ => false end) /\
  is_rvalue_reference_member env t = Some (match q_r q with RR => true | _ => false end) /\
  is_reference_member env t = Some (match q_r q with RNone => false | _ => true end) /\
  (has_member_qualifiers env t = Some false <-> q = noq) /\ class_of env t = Some (TName false false cls).
Proof.
  intros. cbv zeta. destruct q as [[] [] []]; destruct c; cbn; repeat split; try easy; intro H; try discriminate; injection H; discriminate.
Qed.
Print Assumptions C117_member_queries.
(** A member function as a free function of an object and the same parameters,
    and as a member function of another class: with the same qualifiers, those
    of the class given do not matter. *)
Theorem C117_member_as : forall env c cls r ps va ne q, Forall is_param ps ->
  let t := TMemFun c false cls r ps va ne q in
  as_free_function env t = Some (TFun r ((match q_r q with RR => TRRef (TName (q_c q) (q_v q) cls) | _ => TLRef (TName (q_c q) (q_v q) cls) end) :: ps) va ne noq) /\
  (forall c' v' n k, In k [TName c' v' n; TLRef (TName c' v' n); TRRef (TName c' v' n)] ->
     as_member_of env t k = Some (TMemFun false false n r ps va ne q)).
Proof.
  intros * P. cbv zeta. split.
  - destruct q as [[] [] []]; cbn; rewrite (map_param_id ps P); easy.
  - intros c' v' n k Hk. unfold as_member_of, modify_class. cbn [function_traits member_traits tr_cat obind].
    destruct Hk as [<-|[<-|[<-|[]]]]; destruct q as [[] [] []], c', v'; cbn; rewrite (map_param_id ps P); reflexivity.
Qed.
Print Assumptions C117_member_as.
(** Data: a member pointer of that type. *)
Theorem C117_data_member : forall env c v n k, env k = None -> as_member_of env (TName c v k) (TName false false n) = Some (TMemData false false n (TName c v k)) /\
  class_of env (TMemData false false n (TName c v k)) = Some (TName false false n).
Proof. intros * E. unfold as_member_of. cbn. rewrite E. easy. Qed.
Print Assumptions C117_data_member.
(** A function pointer with another return type would be expected to stay a
    pointer ("otherwise identical"): it becomes a function. *)
Theorem C117_pointer_kept_refuted : forall env, exists f r,
  with_return_type env (TPtr false false f) r <> option_map (TPtr false false) (with_return_type env f r) /\
  with_return_type env (TPtr false false f) r = with_return_type env f r.
Proof. intro env. exists (TFun (TName false false 0) [] false false noq), (TName false false 1). split; [discriminate | reflexivity]. Qed.
Print Assumptions C117_pointer_kept_refuted.
(** Function objects have no modified versions. *)
Theorem C117_object_modify : forall env n op c v, env n = Some op -> operators_are_members env ->
  add_noexcept env (TName c v n) = None /\ remove_noexcept env (TName c v n) = None /\ add_variadic env (TName c v n) = None /\
  remove_variadic env (TName c v n) = None /\ (forall r, with_return_type env (TName c v n) r = None) /\
  (forall f, modify_class env (TName c v n) f = None) /\
  exists cls r ps va ne q, op = TMemFun false false cls r ps va ne q /\ as_free_function env (TName c v n) = Some (TFun r (map param ps) va ne noq).
Proof.
  intros * E U. destruct (U n op E) as (cls & r & ps & va & ne & q & ->).
  unfold add_noexcept, remove_noexcept, add_variadic, remove_variadic, with_return_type, modify_class, as_free_function. cbn. rewrite E. cbn.
  repeat (split; [reflexivity|]). exists cls, r, ps, va, ne, q. easy.
Qed.
Print Assumptions C117_object_modify.

(** ** Qualifiers of other types *)
(** Object types: neither references nor functions. *)
Definition object_type (t : ty) : Prop := match t with TLRef _ | TRRef _ | TFun _ _ _ _ _ => False | _ => True end.
(** [t] up to its const and volatile. *)
Definition bare (t : ty) : ty := set_const false (set_volatile false t).
(** A function type built of a return type and parameters: neither variadic nor noexcept; a parameter that is a function
    becomes a plain pointer to it, others lose their own const and volatile. *)
Theorem C117_from_list : forall ps r, exists us, with_return_type_list ps r = Some (TFun r us false false noq) /\
  Forall2 (fun t u => (exists r' ps' va ne q, t = TFun r' ps' va ne q /\ u = TPtr false false t) \/
    ((forall r' ps' va ne q, t <> TFun r' ps' va ne q) /\ is_const u = false /\ is_volatile u = false /\ bare u = bare t)) ps us.
Proof.
  intros ps r. exists (map param ps). split; [reflexivity|]. induction ps as [|t ps IH]; [constructor|]. constructor; [|exact IH].
  destruct t as [c v n|c v t|t|t|r' ps' va ne q|c v cls r' ps' va ne q|c v cls t]; [right..|left|right|right];
    try (exists r', ps', va, ne, q; split; reflexivity); (split; [discriminate|]); repeat split.
Qed.
Print Assumptions C117_from_list.
(** Function objects are the types, not references to them, whose traits are taken from an operator(). *)
Theorem C117_function_object : forall env t, operators_are_members env ->
  FunctionObject env t = true <-> is_ref t = false /\ exists tr, function_traits env t = Some tr /\ tr_cat tr = CObject.
Proof.
  intros env t U. split.
  - destruct t as [c v n| | | | | |]; try discriminate. cbn. destruct (env n) as [op|] eqn:E; [|discriminate]. intros _.
    destruct (U n op E) as (cls & r & ps & va & ne & q & ->). split; [reflexivity|]. eexists. split; reflexivity.
  - intros [R (tr & E & K)]. destruct t as [c v n|c v t| | |r ps va ne q|c v cls r ps va ne q|]; cbn in *; try discriminate.
    + destruct (env n); [reflexivity|discriminate].
    + destruct v; [discriminate|]. destruct (function_traits env t) as [tr'|]; [|discriminate]. destruct (tr_cat tr') eqn:C; try discriminate.
      injection E as <-. congruence.
    + destruct (no_quals q); [|discriminate]. injection E as <-. discriminate.
    + destruct v; [discriminate|]. injection E as <-. discriminate.
Qed.
Print Assumptions C117_function_object.
Theorem C117_copy : forall t s, object_type t ->
  (is_const (copy_const t s) = is_const s /\ is_volatile (copy_const t s) = is_volatile t /\ bare (copy_const t s) = bare t) /\
  (is_volatile (copy_volatile t s) = is_volatile s /\ is_const (copy_volatile t s) = is_const t /\ bare (copy_volatile t s) = bare t) /\
  (is_const (copy_cv t s) = is_const s /\ is_volatile (copy_cv t s) = is_volatile s /\ bare (copy_cv t s) = bare t).
Proof.
  intros t s Ht. unfold copy_cv, copy_const, copy_volatile.
  destruct t as [c v n|c v t|t|t|r ps va ne q|c v k r ps va ne q|c v k t]; try easy; destruct c, v; cbn;
    destruct (is_const s), (is_volatile s); repeat split.
Qed.
Print Assumptions C117_copy.
Theorem C117_copy_cvref : forall t s, object_type (remove_reference t) -> is_ref (remove_reference s) = false ->
  let u := copy_cvref t s in
  is_lref u = is_lref s /\ is_rref u = is_rref s /\ bare (remove_reference u) = bare (remove_reference t) /\
  is_const (remove_reference u) = is_const (remove_reference s) /\ is_volatile (remove_reference u) = is_volatile (remove_reference s).
Proof.
  intros t s Ht Hs. cbv zeta. unfold copy_cvref.
  destruct (C117_copy (remove_reference t) (remove_reference s) Ht) as (_ & _ & A & B & C).
  set (x := copy_cv (remove_reference t) (remove_reference s)) in *.
  assert (object_type x) as Hx.
  { unfold x, copy_cv, copy_const, copy_volatile. destruct (remove_reference t) as [[] []|[] []| | | |[] []|[] []]; try easy;
      cbn; destruct (is_const (remove_reference s)), (is_volatile (remove_reference s)); exact I. }
  assert (copy_reference x s = match s with TLRef _ => TLRef x | TRRef _ => TRRef x | _ => x end) as -> by (destruct x; try easy; now destruct s).
  assert (remove_reference x = x /\ is_lref x = false /\ is_rref x = false) as (R & L1 & L2) by (now destruct x).
  destruct s; cbn [is_lref is_rref remove_reference] in *; rewrite ?R, ?L1, ?L2; auto.
Qed.
Print Assumptions C117_copy_cvref.
(** The inner qualifiers are those behind a reference. *)
Definition under (f : ty -> ty) (t : ty) : ty := match t with TLRef x => TLRef (f x) | TRRef x => TRRef (f x) | _ => f t end.
Theorem C117_inner : forall t, is_ref (remove_reference t) = false ->
  add_inner_const t = under (set_const true) t /\ remove_inner_const t = under (set_const false) t /\
  add_inner_volatile t = under (set_volatile true) t /\ remove_inner_volatile t = under (set_volatile false) t /\
  add_inner_cv t = under (fun x => set_const true (set_volatile true x)) t /\
  remove_inner_cv t = under (fun x => set_const false (set_volatile false x)) t.
Proof.
  intros t H. unfold add_inner_cv, remove_inner_cv.
  destruct t as [[] []|[] []|x|x| |[] []|[] []]; try (repeat split; reflexivity);
    destruct x as [[] []|[] []|y|y| |[] []|[] []]; try (repeat split; reflexivity); discriminate H.
Qed.
Print Assumptions C117_inner.
(** ** Cases *)
Definition int := TName false false 0.
Definition env117 (n : nat) : option ty := if n =? 7 then Some (TMemFun false false 7 int [TLRef int; int] false true (Q true false RNone)) else None.
Definition fn117 := TFun int [TLRef int; int] true false noq.
Definition mf117 := TMemFun false false 9 int [int; TPtr false false fn117] false true (Q true false RL).
Example C117_case : operators_are_members env117 /\ Forall is_param [TLRef int; int] /\ Forall is_param [int; TPtr false false fn117] /\
  leads_to_function (TLRef (TPtr true false fn117)) fn117 /\ callable (TLRef (TPtr true false fn117)) = true /\
  add_noexcept env117 (TLRef (TPtr true false fn117)) = Some (TFun int [TLRef int; int] true true noq) /\
  remove_member_const env117 mf117 = Some (TMemFun false false 9 int [int; TPtr false false fn117] false true (Q false false RL)) /\
  as_free_function env117 mf117 = Some (TFun int [TLRef (TName true false 9); int; TPtr false false fn117] false true noq) /\
  as_free_function env117 (TName true false 7) = Some (TFun int [TLRef int; int] false true noq) /\
  as_member_of env117 mf117 (TName false false 7) = Some (TMemFun false false 7 int [int; TPtr false false fn117] false true (Q true false RL)) /\
  copy_cvref (TRRef (TName false true 3)) (TLRef (TName true false 4)) = TLRef (TName true false 3) /\
  remove_inner_cv (TRRef (TName true true 3)) = TRRef (TName false false 3).
Proof.
  split.
  { intros n t. unfold env117. destruct (n =? 7); [|discriminate]. intro E. injection E as <-. now eexists _, _, _, _, _, _. }
  split; [now repeat (apply Forall_cons; [repeat split|])|]. split; [now repeat (apply Forall_cons; [repeat split|])|].
  split; [constructor; constructor; constructor|]. repeat (split; [reflexivity|]). reflexivity.
Qed.
