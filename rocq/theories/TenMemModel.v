(** Tensors as objects in memory (C141): include/actl/container/tensor.hpp.
    ContainerModel.v has the index arithmetic; here a tensor is its dimensions
    and a pointer into a memory of blocks, so that construction, writes, views,
    swap and move can be told apart by what the memory holds afterwards. *)
From Coq Require Import ZArith List Bool PeanoNat.
From Verif Require Import Outcome ListLemmas ContainerModel.
Import ListNotations.

Section TenMem.
  Local Open Scope Z_scope.
  Context {T : Type}.

  (** Blocks of memory, numbered from 0; an element is None until it is first
      written (new T[size], 92, and std::array<T, Size>, 84, do not
      initialise elements of a scalar type). *)
  (* container/tensor.hpp:62-108 *)
  Definition memory := list (list (option T)).
  (** What data() returns, 71-77, 94-100, 177-183: None is the null pointer,
      otherwise a block and a position in it. *)
  (* container/tensor.hpp:71-77, 94-100, 177-183 *)
  Definition address := (nat * Z)%type.
  (** tensor_shape, 213-273: m_dims and the data. *)
  (* container/tensor.hpp:197-222 *)
  Record ten := { t_dims : list Z; t_data : option address }.

  (** Reading and writing *p in C++; outside a block, or reading an element
      never written, is undefined. *)
  (* the language, used at container/tensor.hpp:335, 379, 462, 467 *)
  Definition mread (m : memory) (a : address) : outcome T :=
    match nth_error m (fst a) with
    | Some c =>
        if 0 <=? snd a then
          match nth_error c (Z.to_nat (snd a)) with
          | Some (Some x) => Ok x
          | _ => UB
          end
        else UB
    | None => UB
    end.
  (* the language, used at container/tensor.hpp:123, 127, 335, 379, 462 *)
  Definition mwrite (m : memory) (a : address) (x : T) : outcome memory :=
    match nth_error m (fst a) with
    | Some c =>
        if (0 <=? snd a) && (snd a <? Z.of_nat (length c))
        then Ok (list_set m (fst a) (list_set c (Z.to_nat (snd a)) (Some x)))
        else UB
    | None => UB
    end.
  (** std::copy_n and std::fill_n: write consecutive elements from [a] on. *)
  (* the standard library, used at container/tensor.hpp:123, 127 *)
  Fixpoint write_all (m : memory) (a : address) (xs : list T) : outcome memory :=
    match xs with
    | [] => Ok m
    | x :: xs => do m <- mwrite m a x; write_all m (fst a, snd a + 1) xs
    end.

  (** Dimensions given as a list to a tensor of [n] dimensions, 206-208:
      copy_n reads [n] elements of the list whatever its length. *)
  (* container/tensor.hpp:202-211, 233-238 *)
  Definition dims_of_list (n : nat) (il : list Z) : outcome (list Z) :=
    if (length il <? n)%nat then UB else Ok (firstn n il).

  (** 250-252, 296-298 *)
  (* container/tensor.hpp:250-252, 296-298 *)
  Definition t_size (t : ten) : Z := compute_product (t_dims t).
  (** data()[p] *)
  (* container/tensor.hpp:335, 379, 383, 462, 467 *)
  Definition t_addr (t : ten) (p : Z) : outcome address :=
    match t_data t with
    | Some (b, o) => Ok (b, o + p)
    | None => UB
    end.
  (** The tensor without initial values: 67-69, 92, 118, 225-238. *)
  (* container/tensor.hpp:67-69, 92, 118, 225-238, 282-283 *)
  Definition t_new (m : memory) (ds : list Z) : memory * ten :=
    (m ++ [repeat None (Z.to_nat (compute_product ds))],
     {| t_dims := ds; t_data := Some (length m, 0) |}).
  (** With a value for all the elements, 126-128. *)
  (* container/tensor.hpp:126-128 *)
  Definition t_fill (m : memory) (ds : list Z) (x : T) : outcome (memory * ten) :=
    let '(m, t) := t_new m ds in
    do a <- t_addr t 0; do m <- write_all m a (repeat x (Z.to_nat (t_size t)));
    Ok (m, t).
  (** With a range of the elements, 120-124. *)
  (* container/tensor.hpp:120-124 *)
  Definition t_copy (m : memory) (ds : list Z) (source : list T) : outcome (memory * ten) :=
    let '(m, t) := t_new m ds in
    assert_then (t_size t =? Z.of_nat (length source))
      (do a <- t_addr t 0; do m <- write_all m a (firstn (Z.to_nat (t_size t)) source);
       Ok (m, t)).
  (** tensor_view over elements at [a], 171-175 with 225-238. *)
  (* container/tensor.hpp:170-175, 578-580 *)
  Definition t_view (ds : list Z) (a : address) : ten := {| t_dims := ds; t_data := Some a |}.

  (** operator(), 460-468, read and written; on a tensor of rank 0 also the
      conversion to a reference, 378-384. *)
  (* container/tensor.hpp:378-384, 460-468 *)
  Definition t_at (m : memory) (t : ten) (is : list Z) : outcome T :=
    do p <- get_index true 0 (t_dims t) is; do a <- t_addr t p; mread m a.
  Definition t_set (m : memory) (t : ten) (is : list Z) (x : T) : outcome memory :=
    do p <- get_index true 0 (t_dims t) is; do a <- t_addr t p; mwrite m a x.
  (** operator[], 307-366: the view of a slice.  For a tensor of one dimension
      the result, a reference to an element, is shown as a view of rank 0. *)
  (* container/tensor.hpp:307-366 *)
  Definition t_sub (t : ten) (i : Z) : outcome ten :=
    match t_dims t with
    | [] => UB
    | d :: ds =>
        assert_then ((0 <=? i) && (i <? d))
          (do a <- t_addr t (w64 (i * compute_product ds));
           Ok {| t_dims := ds; t_data := Some a |})
    end.
  (** Iteration from begin() to end(), 408-422. *)
  (* container/tensor.hpp:408-422 *)
  Fixpoint read_all (m : memory) (a : address) (n : nat) : outcome (list T) :=
    match n with
    | O => Ok []
    | S n => do x <- mread m a; do xs <- read_all m (fst a, snd a + 1) n; Ok (x :: xs)
    end.
  Definition t_elems (m : memory) (t : ten) : outcome (list T) :=
    match t_data t with
    | Some a => read_all m a (Z.to_nat (t_size t))
    | None => if t_size t =? 0 then Ok [] else UB
    end.

  (** swap of tensors that own or view a block through a pointer, 102-104,
      185-187, 258-262, 486-489. *)
  (* container/tensor.hpp:102-104, 144-146, 185-187, 258-262, 486-489 *)
  Definition swap_pointer (m : memory) (l r : ten) : memory * ten * ten :=
    (m, {| t_dims := t_dims r; t_data := t_data r |},
        {| t_dims := t_dims l; t_data := t_data l |}).
  (** swap of tensors whose elements are in the object (a product of the fixed
      dimensions of at most 16, 497-505), 79-81: the elements are exchanged. *)
  (* container/tensor.hpp:79-81, 497-505 *)
  Definition swap_inline (m : memory) (l r : ten) : outcome (memory * ten * ten) :=
    match t_data l, t_data r with
    | Some (b, _), Some (c, _) =>
        match nth_error m b, nth_error m c with
        | Some x, Some y => Ok (list_set (list_set m b y) c x, l, r)
        | _, _ => UB
        end
    | _, _ => UB
    end.

  (** The implicit move constructor: the unique_ptr of the source becomes null,
      its dimensions stay when they are an array ([false]) and are emptied when
      they are a vector ([true], 517-520).  Result: the new tensor and what is left. *)
  (* container/tensor.hpp:87-108, 197-211, 507-528 *)
  Definition t_move (dynamic_rank : bool) (t : ten) : ten * ten :=
    ({| t_dims := t_dims t; t_data := t_data t |},
     {| t_dims := if dynamic_rank then [] else t_dims t; t_data := None |}).
End TenMem.
