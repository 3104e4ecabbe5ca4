(** Model of include/actl/container: adaptors, semi-static array, tensor, ids. *)
From Coq Require Import ZArith List Bool PeanoNat.
From Verif Require Import Outcome ListLemmas.
Import ListNotations.

(** ** adaptor/queue_using_stacks.hpp *)
(** Lines 18-19. A stack is a list whose head is the top. *)
Record queue2 (A : Type) := { m_in : list A; m_out : list A }.
Arguments m_in {A} q.
Arguments m_out {A} q.
Arguments Build_queue2 {A}.

(** Loop of lines 23-26, by recursion over the elements of the in stack: push
    the top onto the out stack, pop the in stack. Second result: the number of
    elements moved. *)
Fixpoint pour {A} (ins outs : list A) : list A * nat :=
  match ins with
  | [] => (outs, 0)
  | x :: ins => let (o, n) := pour ins (x :: outs) in (o, S n)
  end.
(** Lines 21-28. *)
Definition fill_out_stack {A} (q : queue2 A) : queue2 A * nat :=
  match m_out q with
  | [] => let (o, n) := pour (m_in q) [] in (Build_queue2 [] o, n)
  | _ => (q, 0)
  end.
Definition q2_empty {A} (q : queue2 A) : bool :=                (* 37-39 *)
  match m_in q, m_out q with [], [] => true | _, _ => false end.
Definition q2_size {A} (q : queue2 A) : nat :=                  (* 41-43 *)
  length (m_in q) + length (m_out q).
(** 45-48; top of an empty stack is UB. *)
Definition q2_top {A} (q : queue2 A) : outcome (A * queue2 A * nat) :=
  let (q, n) := fill_out_stack q in
  match m_out q with [] => UB | x :: _ => Ok (x, q, n) end.
Definition q2_push {A} (q : queue2 A) (x : A) : queue2 A :=     (* 50-61 *)
  Build_queue2 (x :: m_in q) (m_out q).
(** 63-66. The code calls [m_out_stack.pop_back()], which std::stack does not
    have; modelled as the removal of the top of the out stack. *)
Definition q2_pop {A} (q : queue2 A) : outcome (queue2 A * nat) :=
  let (q, n) := fill_out_stack q in
  match m_out q with [] => UB | _ :: o => Ok (Build_queue2 (m_in q) o, n) end.

(** A client: operations and what they return. *)
(* A client of the queue above, without lines in /repo (C++20). *)
Inductive qop (A : Type) := Push (x : A) | Pop | Front.
Arguments Push {A}. Arguments Pop {A}. Arguments Front {A}.
(** Run a history; results: observed fronts, number of moved elements. *)
(* A client, without lines in /repo (C++20). *)
Fixpoint q2_run {A} (q : queue2 A) (h : list (qop A)) : outcome (list A * queue2 A * nat) :=
  match h with
  | [] => Ok ([], q, 0)
  | Push x :: h => q2_run (q2_push q x) h
  | Pop :: h => do (q, n) <- q2_pop q; do (l, q, m) <- q2_run q h; Ok (l, q, n + m)
  | Front :: h => do (x, q, n) <- q2_top q; do (l, q, m) <- q2_run q h; Ok (x :: l, q, n + m)
  end.

(** ** adaptor/vector_as_queue.hpp (70-71) *)
Record vqueue (A : Type) := { vq_vec : list A; vq_begin : nat }.
Arguments vq_vec {A} v.
Arguments vq_begin {A} v.
Arguments Build_vqueue {A}.
Definition vq_empty {A} (q : vqueue A) : bool := vq_begin q =? length (vq_vec q).  (* 27-29 *)
Definition vq_size {A} (q : vqueue A) : nat := length (vq_vec q) - vq_begin q.     (* 31-33 *)
Definition vq_front {A} (q : vqueue A) : outcome A :=                              (* 35-41 *)
  match nth_error (vq_vec q) (vq_begin q) with Some x => Ok x | None => UB end.
Definition vq_back {A} (q : vqueue A) : outcome A :=                               (* 43-49 *)
  match nth_error (vq_vec q) (length (vq_vec q) - 1) with Some x => Ok x | None => UB end.
Definition vq_push {A} (q : vqueue A) (x : A) : vqueue A :=                        (* 51-62 *)
  Build_vqueue (vq_vec q ++ [x]) (vq_begin q).
Definition vq_pop {A} (q : vqueue A) : outcome (vqueue A) :=                       (* 64-67 *)
  assert_then (vq_begin q <? length (vq_vec q)) (Ok (Build_vqueue (vq_vec q) (S (vq_begin q)))).

(** Runs a history from a queue: the state reached (Front observed separately). *)
(* A client of the queue above, without lines in /repo (C++20). *)
Fixpoint vq_run {A} (q : vqueue A) (h : list (qop A)) : outcome (list A * vqueue A) :=
  match h with
  | [] => Ok ([], q)
  | Push x :: h => vq_run (vq_push q x) h
  | Pop :: h => do q <- vq_pop q; vq_run q h
  | Front :: h => do x <- vq_front q; do (l, q) <- vq_run q h; Ok (x :: l, q)
  end.

(** ** adaptor/array_as_vector.hpp (109-110) *)
(** Objects live in a store; [av_end] is an iterator, i.e. a pointer into the
    storage of some object: the object's number and an offset. *)
(* container/adaptor/array_as_vector.hpp:108-110 *)
Record avec (A : Type) := { av_arr : list A; av_obj : nat; av_off : nat }.
Arguments av_arr {A} a.
Arguments av_obj {A} a.
Arguments av_off {A} a.
Arguments Build_avec {A}.
Definition store (A : Type) := list (avec A).

(** Lines 27, 104-106: m_end = m_array.begin(); [a0] is the (indeterminate)
    content of the array. *)
Definition av_make {A} (self : nat) (a0 : list A) : avec A := Build_avec a0 self 0.
(** 45-47: end() - begin(); the difference of pointers into different arrays
    is UB. *)
Definition av_size {A} (self : nat) (a : avec A) : outcome nat :=
  if av_obj a =? self then Ok (av_off a) else UB.
(** Contents as seen by iteration from begin() to end(). *)
(* array_as_vector.hpp:29-43 *)
Definition av_list {A} (self : nat) (a : avec A) : outcome (list A) :=
  do n <- av_size self a; Ok (firstn n (av_arr a)).
Definition av_index {A} (a : avec A) (n : nat) : outcome A :=                      (* 53-59 *)
  match nth_error (av_arr a) n with Some x => Ok x | None => UB end.
Definition av_back {A} (s : store A) (a : avec A) : outcome A :=                   (* 69-75 *)
  if av_off a =? 0 then UB
  else match nth_error s (av_obj a) with
       | Some b => av_index b (av_off a - 1)
       | None => UB
       end.
(** 85-97 on object [self] of the store: write through m_end, advance it. The
    assertion [m_end < N] compares an iterator with a number and does not
    compile in debug builds for a pointer iterator; modelled as in the release
    build, where writing past the storage is UB. *)
Definition av_push {A} (s : store A) (self : nat) (x : A) : outcome (store A) :=
  match nth_error s self with
  | None => UB
  | Some a =>
      match nth_error s (av_obj a) with
      | None => UB
      | Some b =>
          if av_off a <? length (av_arr b) then
            let s := list_set s (av_obj a) (Build_avec (list_set (av_arr b) (av_off a) x) (av_obj b) (av_off b)) in
            match nth_error s self with
            | None => UB
            | Some a => Ok (list_set s self (Build_avec (av_arr a) (av_obj a) (S (av_off a))))
            end
          else UB
      end
  end.
(** 99-102. The comparison with begin() of another array never holds. *)
Definition av_pop {A} (s : store A) (self : nat) : outcome (store A) :=
  match nth_error s self with
  | None => UB
  | Some a =>
      assert_then (negb ((av_obj a =? self) && (av_off a =? 0)))
        (if av_off a =? 0 then UB
         else Ok (list_set s self (Build_avec (av_arr a) (av_obj a) (av_off a - 1))))
  end.
Definition av_clear {A} (s : store A) (self : nat) : outcome (store A) :=          (* 104-106 *)
  match nth_error s self with
  | None => UB
  | Some a => Ok (list_set s self (Build_avec (av_arr a) self 0))
  end.
(** The implicitly defined copy constructor copies m_array and m_end. *)
(* Implicit member of the class of array_as_vector.hpp:17-111; [vop], [av_step], [av_run] are a
   client of it. *)
Definition av_copy {A} (s : store A) (from : nat) : outcome (store A) :=
  match nth_error s from with
  | None => UB
  | Some a => Ok (s ++ [a])
  end.

Inductive vop (A : Type) := VPush (x : A) | VPop | VClear.
Arguments VPush {A}. Arguments VPop {A}. Arguments VClear {A}.
Definition av_step {A} (s : store A) (self : nat) (o : vop A) : outcome (store A) :=
  match o with
  | VPush x => av_push s self x
  | VPop => av_pop s self
  | VClear => av_clear s self
  end.
(** A history of operations on numbered objects. *)
(* A client, without lines in /repo (C++20). *)
Fixpoint av_run {A} (s : store A) (h : list (nat * vop A)) : outcome (store A) :=
  match h with
  | [] => Ok s
  | (i, o) :: h => do s <- av_step s i o; av_run s h
  end.

(** ** array/semi_static_array.hpp *)
Section Semi.
  Context {T : Type}.
  Variable eqb : T -> T -> bool.
  (** extent.hpp:15-16 *)
  Variable dynamic_extent : T.
  (** The template argument pack Values, 24. *)
  Variable values : list T.

  Definition is_dyn (v : T) : bool := eqb v dynamic_extent.
  (** 26-27 *)
  Definition size_dyn : nat := length (filter is_dyn values).
  (** 106-121; the loop and the fold expression both count the dynamic
      elements among the first [i]. *)
  Fixpoint count_dyn (i : nat) (vs : list T) : nat :=
    match i, vs with
    | O, _ => 0
    | S i, v :: vs => (if is_dyn v then 1 else 0) + count_dyn i vs
    | S i, [] => 0
    end.
  Definition dynamic_index (i : nat) : nat := count_dyn i values.
  (** 61-67, state: dynamic_values *)
  Definition ssa_get (dv : list T) (i : nat) : outcome T :=
    assert_then (i <? length values)
      match nth_error values i with
      | None => UB
      | Some v => if negb (is_dyn v) then Ok v
                  else match nth_error dv (dynamic_index i) with Some x => Ok x | None => UB end
      end.
  (** 79-83: reference to a dynamic element, written to; None: does not
      compile (the requires clause fails). *)
  Definition ssa_set (dv : list T) (i : nat) (x : T) : option (list T) :=
    match nth_error values i with
    | Some v => if is_dyn v then Some (list_set dv (dynamic_index i) x) else None
    | None => None
    end.
  (** 123-135: constructor from all the elements: assign_at<Is>(xs) in order. *)
  Definition assign_at (dv : list T) (i : nat) (x : T) : list T :=
    match ssa_set dv i x with Some dv => dv | None => dv end.
  Fixpoint assign_all (dv : list T) (i : nat) (xs : list T) : list T :=
    match xs with
    | [] => dv
    | x :: xs => assign_all (assign_at dv i x) (S i) xs
    end.
  Definition ssa_make (zero : T) (xs : list T) : list T :=
    assign_all (repeat zero size_dyn) 0 xs.
  (** 97-101 with equality/arrays.hpp:12-18 *)
  Fixpoint is_equal_array (l r : list T) : bool :=
    match l, r with
    | [], [] => true
    | x :: l, y :: r => eqb x y && is_equal_array l r
    | _, _ => false
    end.
End Semi.

(** ** tensor.hpp *)
Section TensorIndex.
  Local Open Scope Z_scope.
  (* Width of size_t on a 64-bit machine. *)
  Definition w64 (x : Z) : Z := x mod 2 ^ 64.
  (** 49-55, size_t arithmetic *)
  Definition compute_product (ds : list Z) : Z := fold_left (fun res v => w64 (res * v)) ds 1.
  (** 471-483; [first]: I == 0; too many indices fail the assertion of
      dimension (353-356), too few the assertion I == rank. *)
  Fixpoint get_index (first : bool) (res : Z) (ds is : list Z) : outcome Z :=
    match ds, is with
    | [], [] => Ok res
    | d :: ds, i :: is =>
        assert_then ((0 <=? i) && (i <? d))
          (get_index false (w64 ((if first then res else w64 (res * d)) + i)) ds is)
    | _, _ => AssertFail
    end.
  (** operator() 460-468: read the element *)
  Definition tensor_at {T} (ds : list Z) (data : list T) (is : list Z) : outcome T :=
    do p <- get_index true 0 ds is;
    match nth_error data (Z.to_nat p) with Some x => Ok x | None => UB end.
  (** operator[] 307-366, applied rank times; [base]: offset of the data
      pointer of the current sub-tensor. *)
  Fixpoint sub_index (base : Z) (ds is : list Z) : outcome Z :=
    match ds, is with
    | d :: ds, i :: is =>
        assert_then ((0 <=? i) && (i <? d))
          match ds with
          | [] => Ok (base + i)
          | _ :: _ => sub_index (base + w64 (i * compute_product ds)) ds is
          end
    | _, _ => UB
    end.
End TensorIndex.

(** 27-44: nested initializer lists of rank n. *)
Fixpoint ndl (T : Type) (n : nat) : Type :=
  match n with
  | O => T
  | S n => list (ndl T n)
  end.

(** 264-272: dims[I] = max(dims[I], il.size()) for all nested lists. *)
Fixpoint compute_dimensions {T} (n : nat) : ndl T n -> list nat -> list nat :=
  match n with
  | O => fun _ ds => ds
  | S m => fun il ds =>
      match ds with
      | [] => []
      | d :: ds => Nat.max d (length il) :: fold_left (fun ds x => compute_dimensions m x ds) il ds
      end
  end.

(** 133-139: strides[N-2] = dims[N-1]; for i = N-2 .. 1:
    strides[i-1] = strides[i] * dims[i-1]. *)
Fixpoint strides_loop (dims : list nat) (i : nat) (s : list nat) : list nat :=
  match i with
  | O => s
  | S j => strides_loop dims j (list_set s j (nth i s 0 * nth j dims 0))
  end.
Definition strides (dims : list nat) : list nat :=
  let n := length dims in
  if 2 <=? n then strides_loop dims (n - 2) (list_set (repeat 0 (n - 1)) (n - 2) (nth (n - 1) dims 0))
  else repeat 0 1.

Section TensorInit.
  Context {T : Type}.
  Variable dflt : T.                       (* T{} *)
  (** Memory of the tensor; None is uninitialised. *)
  (* The standard library, used at container/tensor.hpp:123-165. *)
  Definition tmem := list (option T).
  (** std::copy to [p] and std::fill of [p, q); out of bounds is UB. *)
  (* tensor.hpp:141, 161, 165 *)
  Definition put_all (m : tmem) (p : nat) (xs : list T) : outcome (nat * tmem) :=
    if p + length xs <=? length m
    then Ok (p + length xs, firstn p m ++ map Some xs ++ skipn (p + length xs) m)
    else UB.
  Definition fill (m : tmem) (p q : nat) : outcome tmem :=
    if p <=? q then omap snd (put_all m p (repeat dflt (q - p))) else UB.

  (** The loop of lines 158-162. *)
  Fixpoint init_loop {X} (rec : X -> nat -> tmem -> outcome (nat * tmem)) (s : nat)
    (il : list X) (p : nat) (m : tmem) : outcome (nat * tmem) :=
    match il with
    | [] => Ok (p, m)
    | x :: il =>
        do (e, m) <- rec x p m;
        let p := p + s in
        if p <=? length m then do m <- fill m e p; init_loop rec s il p m else UB
    end.
  (** 149-167; [n] = N - I is the rank of [il], [ds] and [ss] are the
      dimensions and strides from I on. *)
  Fixpoint initialize (n : nat) : ndl T n -> list nat -> list nat -> nat -> tmem -> outcome (nat * tmem) :=
    match n with
    | O => fun _ _ _ _ _ => UB
    | S k =>
        let rec := initialize k in
        match k as k return
          (ndl T k -> list nat -> list nat -> nat -> tmem -> outcome (nat * tmem)) ->
          ndl T (S k) -> list nat -> list nat -> nat -> tmem -> outcome (nat * tmem) with
        | O => fun _ il ds _ p m => assert_then (length il <=? hd 0 ds) (put_all m p il)
        | S _ => fun rec il ds ss p m =>
            assert_then (length il <=? hd 0 ds)
              (init_loop (fun x => rec x (tl ds) (tl ss)) (hd 0 ss) il p m)
        end rec
    end.

  (** 120-142 with a nested list and given dimensions. *)
  Definition tensor_init (n : nat) (il : ndl T n) (ds : list nat) : outcome tmem :=
    let size := fold_left Nat.mul ds 1 in
    do (e, m) <- initialize n il ds (strides ds) 0 (repeat None size);
    fill m e size.
  (** 240-244: dimensions computed from the list. *)
  Definition tensor_of_list (n : nat) (il : ndl T n) : outcome (list nat * tmem) :=
    let ds := compute_dimensions n il (repeat 0 n) in
    do m <- tensor_init n il ds; Ok (ds, m).
End TensorInit.

(** 544-557, with the element equality of the spans (range/operation/is_equal_range.hpp). *)
Section TensorEqual.
  Context {T : Type}.
  Variable eqb : T -> T -> bool.
  Fixpoint dims_equal (l r : list Z) : bool :=
    match l, r with
    | [], [] => true
    | x :: l, y :: r => (x =? y)%Z && dims_equal l r
    | _, _ => false
    end.
  Fixpoint data_equal (l r : list T) : bool :=
    match l, r with
    | [], [] => true
    | x :: l, y :: r => eqb x y && data_equal l r
    | _, _ => false
    end.
  Definition tensor_equal (l r : list Z * list T) : bool :=
    if negb (length (fst l) =? length (fst r)) then false
    else if negb (dims_equal (fst l) (fst r)) then false
    else data_equal (snd l) (snd r).
End TensorEqual.

(** ** container_id.hpp, functions.hpp for random access containers *)
Section Ids.
  Context {A : Type}.
  Variable eqb : A -> A -> bool.
  Local Open Scope Z_scope.
  Definition id_end (c : list A) : Z := Z.of_nat (length c).            (* 108-114 *)
  Definition id_null : Z := -1.                                        (* 116-123 *)
  Definition id_range (c : list A) : list Z := map Z.of_nat (seq 0 (length c)).  (* 125-129 *)
  Definition id_at (c : list A) (id : Z) : outcome A :=                (* 149-177 *)
    assert_then ((0 <=? id) && (id <? id_end c))
      match nth_error c (Z.to_nat id) with Some x => Ok x | None => UB end.
  (** 181-185, functions.hpp:26-28: emplace_back, id of end() - 1. *)
  Definition id_emplace (c : list A) (x : A) : list A * (Z * bool) :=
    (c ++ [x], (Z.of_nat (length (c ++ [x]) - 1), true)).
  (** 187-190: vector::erase at the iterator; erasing end() is UB. *)
  Definition id_erase (c : list A) (id : Z) : outcome (list A) :=
    assert_then ((0 <=? id) && (id <=? id_end c))
      (if id =? id_end c then UB
       else Ok (firstn (Z.to_nat id) c ++ skipn (S (Z.to_nat id)) c)).
  (** 192-195, functions.hpp:49: std::find. *)
  Fixpoint find_pos (c : list A) (x : A) : nat :=
    match c with
    | [] => 0
    | y :: c => if eqb y x then 0 else S (find_pos c x)
    end.
  Definition id_find (c : list A) (x : A) : Z := Z.of_nat (find_pos c x).
  (** functions.hpp:34-40: erase-remove. *)
  Definition cont_erase (c : list A) (x : A) : list A := filter (fun y => negb (eqb y x)) c.
End Ids.
