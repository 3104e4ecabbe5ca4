(** Model of binary input and output: io/format/binary/binary.hpp,
    io/argument/{byte_span,range,size,tuple,empty}.hpp, io/core/{read_write,batch}.hpp and
    container/functions.hpp: emplace.

    The device is its remaining input or the bytes written so far (C22, C23, C68
    relate the devices to that view); the nested scope guards do nothing for the
    binary format.  Every ordered container uses the comparator [lt].  Types are a universe [ty], values are trees; [big] is the byte
    order of the machine.  Floating point numbers are their bytes ([TBytes]).
    Not modelled: exhaustion of memory in resize, unordered containers. *)
From Coq Require Import ZArith List Bool.
Import ListNotations.
Local Open Scope Z_scope.

Inductive ty :=
| TInt (n : nat) (sg : bool)          (* integer of n bytes *)
| TBytes (n : nat)                    (* n bytes copied as they are *)
| TTuple (l : list ty)                (* std::tuple, std::pair, std::array of fixed size *)
| TVec (t : ty)                       (* dynamic random access container *)
| TList (t : ty)                      (* dynamic container without random access *)
| TSet (t : ty)                       (* ordered set *)
| TMap (k v : ty).                    (* ordered map *)

(* The contents of objects of these types; no lines in /repo. *)
Inductive value :=
| VInt (x : Z)
| VBytes (s : list Z)
| VNode (l : list value)              (* tuple, vector, list, set *)
| VMap (l : list (value * value)).

(** Object representation of an integer: [n] bytes of its two's complement. *)
(* The language, used at io/format/binary/binary.hpp:30-31; the machine is little-endian. *)
Fixpoint le_bytes (n : nat) (x : Z) : list Z :=
  match n with
  | O => []
  | S n => x mod 256 :: le_bytes n (x / 256)
  end.
Definition int_bytes (big : bool) (n : nat) (x : Z) : list Z := if big then rev (le_bytes n x) else le_bytes n x.

Fixpoint le_value (l : list Z) : Z :=
  match l with
  | [] => 0
  | b :: l => b + 256 * le_value l
  end.
Definition int_value (big : bool) (n : nat) (sg : bool) (s : list Z) : Z :=
  let u := le_value (if big then rev s else s) in
  if sg && (2 ^ (8 * Z.of_nat n - 1) <=? u) then u - 2 ^ (8 * Z.of_nat n) else u.

(** container/functions.hpp:21-28: insertion into a set or a map that keeps its
    elements sorted by the comparator [lt], nothing if an equivalent key is present. *)
Fixpoint set_emplace (lt : value -> value -> bool) (l : list value) (x : value) : list value :=
  match l with
  | [] => [x]
  | y :: l' => if lt x y then x :: l else if lt y x then y :: set_emplace lt l' x else l
  end.
Fixpoint map_emplace (lt : value -> value -> bool) (l : list (value * value)) (k v : value) : list (value * value) :=
  match l with
  | [] => [(k, v)]
  | (y, w) :: l' => if lt k y then (k, v) :: l else if lt y k then (y, w) :: map_emplace lt l' k v else l
  end.

(** Size of size_t. *)
(* sizeof(size_t), used at io/argument/size.hpp:21-31 through binary.hpp:31. *)
Definition size_bytes : nat := 8.

(** ** Output: binary.hpp:27-32, byte_span.hpp:14-18, tuple.hpp:31-35, range.hpp:31-49 *)
Fixpoint put_value (big : bool) (t : ty) (v : value) {struct t} : list Z :=
  let put_tuple := fix put_tuple (ts : list ty) (vs : list value) {struct ts} : list Z :=
    match ts, vs with
    | t :: ts, v :: vs => put_value big t v ++ put_tuple ts vs
    | _, _ => []
    end in
  match t, v with
  | TInt n _, VInt x => int_bytes big n x
  | TBytes _, VBytes s => s
  | TTuple ts, VNode vs => put_tuple ts vs
  | TVec t, VNode vs | TList t, VNode vs | TSet t, VNode vs =>
      int_bytes big size_bytes (Z.of_nat (length vs)) ++ flat_map (put_value big t) vs
  | TMap k v, VMap l =>
      int_bytes big size_bytes (Z.of_nat (length l))
      ++ flat_map (fun p => put_value big k (fst p) ++ put_value big v (snd p)) l
  | _, _ => []
  end.

(** ** Input *)
(** byte_span.hpp:20-24: fails when fewer bytes are left. *)
Definition get_bytes (n : nat) (s : list Z) : option (list Z * list Z) :=
  if (n <=? length s)%nat then Some (firstn n s, skipn n s) else None.

(** Repeat a reader that updates the container [n] times (range.hpp:65-70). *)
Fixpoint get_times {A} (n : nat) (f : A -> list Z -> option (A * list Z)) (a : A) (s : list Z) : option (A * list Z) :=
  match n with
  | O => Some (a, s)
  | S n => match f a s with Some (a, s) => get_times n f a s | None => None end
  end.

(** Read over the elements of a list (range.hpp:51-57). *)
Fixpoint get_each (f : value -> list Z -> option (value * list Z)) (l : list value) (s : list Z) : option (list value * list Z) :=
  match l with
  | [] => Some ([], s)
  | v :: l => match f v s with
              | Some (v, s) => match get_each f l s with Some (l, s) => Some (v :: l, s) | None => None end
              | None => None
              end
  end.

(** vector::resize (range.hpp:73): keeps the first elements, appends default ones. *)
Definition resize (n : nat) (d : value) (l : list value) : list value :=
  firstn n l ++ repeat d (n - length l).

(** A default-constructed object. *)
(* The language: Value{} at io/argument/range.hpp:66 and the elements added by resize, range.hpp:73.
   *)
Fixpoint default (t : ty) : value :=
  match t with
  | TInt _ _ => VInt 0
  | TBytes n => VBytes (repeat 0 n)
  | TTuple l => VNode (map default l)
  | TVec _ | TList _ | TSet _ => VNode []
  | TMap _ _ => VMap []
  end.

Definition nodes (v : value) : list value := match v with VNode l => l | _ => [] end.
Definition entries (v : value) : list (value * value) := match v with VMap l => l | _ => [] end.

(** [get_value t v s]: read into the object [v]; range.hpp:51-86, tuple.hpp:37-41,
    size.hpp:27-31, read_write.hpp:29-50.  [None]: read returned false. *)
Fixpoint get_value (lt : value -> value -> bool) (big : bool) (t : ty) (v : value) (s : list Z) {struct t} : option (value * list Z) :=
  let get_tuple := fix get_tuple (ts : list ty) (vs : list value) (s : list Z) {struct ts} : option (list value * list Z) :=
    match ts, vs with
    | t :: ts, v :: vs =>
        match get_value lt big t v s with
        | Some (v, s) => match get_tuple ts vs s with Some (vs, s) => Some (v :: vs, s) | None => None end
        | None => None
        end
    | _, _ => Some ([], s)
    end in
  let get_size (s : list Z) : option (nat * list Z) :=
    match get_bytes size_bytes s with
    | Some (b, s) => Some (Z.to_nat (int_value big size_bytes false b), s)
    | None => None
    end in
  match t with
  | TInt n sg => match get_bytes n s with Some (b, s) => Some (VInt (int_value big n sg b), s) | None => None end
  | TBytes n => match get_bytes n s with Some (b, s) => Some (VBytes b, s) | None => None end
  | TTuple ts => match get_tuple ts (nodes v) s with Some (l, s) => Some (VNode l, s) | None => None end
  | TVec t =>
      match get_size s with
      | Some (n, s) => match get_each (get_value lt big t) (resize n (default t) (nodes v)) s with
                       | Some (l, s) => Some (VNode l, s)
                       | None => None
                       end
      | None => None
      end
  | TList t =>
      match get_size s with
      | Some (n, s) =>
          match get_times n (fun l s => match get_value lt big t (default t) s with
                                        | Some (x, s) => Some (l ++ [x], s)
                                        | None => None
                                        end) (nodes v) s with
          | Some (l, s) => Some (VNode l, s)
          | None => None
          end
      | None => None
      end
  | TSet t =>
      match get_size s with
      | Some (n, s) =>
          match get_times n (fun l s => match get_value lt big t (default t) s with
                                        | Some (x, s) => Some (set_emplace lt l x, s)
                                        | None => None
                                        end) (nodes v) s with
          | Some (l, s) => Some (VNode l, s)
          | None => None
          end
      | None => None
      end
  | TMap tk tv =>
      match get_size s with
      | Some (n, s) =>
          match get_times n (fun l s =>
                  match get_value lt big tk (default tk) s with
                  | Some (k, s) => match get_value lt big tv (default tv) s with
                                   | Some (x, s) => Some (map_emplace lt l k x, s)
                                   | None => None
                                   end
                  | None => None
                  end) (entries v) s with
          | Some (l, s) => Some (VMap l, s)
          | None => None
          end
      | None => None
      end
  end.
