(** Lazily evaluated arguments and output parameters.

    - include/actl/functional/lazy.hpp: ac::lazy, a wrapper over a function
      without parameters that calls it when it is converted to the result;
    - include/actl/functional/parameter/out.hpp: ac::out;
    - include/actl/functional/parameter/inout.hpp: ac::inout.

    A function object has a state of any type; a call gives the next state and
    either a value or an exception (None).  Maps are finite maps from integer
    keys kept as a list of pairs: only what find, size and the results of
    try_emplace and emplace show is modelled, not the order of the nodes. *)
From Coq Require Import ZArith List Bool Lia.
Import ListNotations.
Open Scope Z_scope.

(** What happens while the code runs: a call of the function, a move of a
    value, the destruction of a temporary, a second search of the map. *)
Inductive lev := LCall | LMove | LDestroy | LFind.

Section Lazy.
Context {St V : Type}.
Variable call : St -> St * option V.

(** ac::lazy{f}: lazy.hpp lines 58-70.  By the deduction guide (lines 69-70)
    [Function] is a reference when the argument is a named object and an object
    of its own when it is a temporary. *)
Inductive larg := Named (i : nat) | Temp (s : St).
Inductive lz := LRef (i : nat) | LOwn (s : St).

Definition make_lazy (a : larg) : lz :=
  match a with
  | Named i => LRef i
  | Temp s => LOwn s
  end.

Fixpoint lset (l : list St) (i : nat) (s : St) : list St :=
  match l, i with
  | [], _ => []
  | _ :: r, O => s :: r
  | x :: r, S j => x :: lset r j s
  end.

(** The conversion operator: lazy.hpp lines 64-66.  It calls the function every
    time (no caching, lines 55-57).  The outer option is None when the named
    object does not exist. *)
Definition lz_convert (objs : list St) (z : lz)
  : option (list St * lz * option V) :=
  match z with
  | LRef i =>
      match nth_error objs i with
      | None => None
      | Some s => let (s', r) := call s in Some (lset objs i s', z, r)
      end
  | LOwn s => let (s', r) := call s in Some (objs, LOwn s', r)
  end.

(** [n] conversions of one wrapper, with their results. *)
Fixpoint lz_converts (n : nat) (objs : list St) (z : lz)
  : option (list St * lz * list (option V)) :=
  match n with
  | O => Some (objs, z, [])
  | S m =>
      match lz_convert objs z with
      | None => None
      | Some (objs1, z1, r) =>
          match lz_converts m objs1 z1 with
          | None => None
          | Some (objs2, z2, rs) => Some (objs2, z2, r :: rs)
          end
      end
  end.

Definition lmap := list (Z * V).

Fixpoint lfind (m : lmap) (k : Z) : option V :=
  match m with
  | [] => None
  | (j, v) :: r => if j =? k then Some v else lfind r k
  end.

(** What a statement gives: the value of the element named by the iterator and
    whether it is new, or an exception. *)
Inductive lres := LGot (v : V) (fresh : bool) | LThrown.

(** map.try_emplace(key, ac::lazy{f}): lazy.hpp line 24.  std::map builds
    nothing for a key that is present; otherwise the value is built in the node
    from the wrapper, that is, it is the result of the call itself.  When the
    call throws the node is freed and the map is as before. *)
Definition ltry_emplace (m : lmap) (s : St) (k : Z)
  : lmap * St * list lev * lres :=
  match lfind m k with
  | Some v => (m, s, [], LGot v false)
  | None =>
      match call s with
      | (s', Some v) => ((k, v) :: m, s', [LCall], LGot v true)
      | (s', None) => (m, s', [LCall], LThrown)
      end
  end.

(** The alternative in the documentation, lazy.hpp lines 29-31: find, then
    emplace of the result of a call, which searches the map again and moves the
    temporary into the node. *)
Definition lfind_emplace (m : lmap) (s : St) (k : Z)
  : lmap * St * list lev * lres :=
  match lfind m k with
  | Some v => (m, s, [], LGot v false)
  | None =>
      match call s with
      | (s', Some v) =>
          ((k, v) :: m, s', [LCall; LFind; LMove; LDestroy], LGot v true)
      | (s', None) => (m, s', [LCall], LThrown)
      end
  end.

(** map.emplace(key, ac::lazy{f}): the node is built before the key is looked
    up, so the function is called in any case; a node for a key that is present
    is destroyed. *)
Definition lemplace (m : lmap) (s : St) (k : Z)
  : lmap * St * list lev * lres :=
  match call s with
  | (s', None) => (m, s', [LCall], LThrown)
  | (s', Some v) =>
      match lfind m k with
      | Some w => (m, s', [LCall; LDestroy], LGot w false)
      | None => ((k, v) :: m, s', [LCall], LGot v true)
      end
  end.

(** A statement for each of the keys in turn; exceptions are caught by the
    caller, who goes on with the next key. *)
Fixpoint lrun (f : lmap -> St -> Z -> lmap * St * list lev * lres)
  (m : lmap) (s : St) (ks : list Z) : lmap * St * list lev * list lres :=
  match ks with
  | [] => (m, s, [], [])
  | k :: r =>
      match f m s k with
      | (m1, s1, e1, x) =>
          match lrun f m1 s1 r with
          | (m2, s2, e2, xs) => (m2, s2, e1 ++ e2, x :: xs)
          end
      end
  end.

(** std::optional<T>{argument}: the argument is a value or a wrapper, [T] is
    the type of values or the type of wrappers. *)
Inductive oty := OValue | OLazy.
Inductive oarg := AValue | ALazy.
Inductive oheld := HValue (v : V) | HLazy (s : St).

(** Class template argument deduction for std::optional{argument}: the type of
    the argument (lazy.hpp lines 43-44 rely on it). *)
Definition odeduce (a : oarg) : oty :=
  match a with
  | AValue => OValue
  | ALazy => OLazy
  end.

(** The statement that initialises an optional from [computeValue()] or from
    [ac::lazy{computeValue}]; [None] is an exception, or no such constructor. *)
Definition oinit (t : oty) (a : oarg) (s : St) : St * list lev * option oheld :=
  match a, t with
  | AValue, OValue =>
      match call s with
      | (s', Some v) => (s', [LCall; LMove; LDestroy], Some (HValue v))
      | (s', None) => (s', [LCall], None)
      end
  | AValue, OLazy => (s, [], None)
  | ALazy, OValue =>
      match call s with
      | (s', Some v) => (s', [LCall], Some (HValue v))
      | (s', None) => (s', [LCall], None)
      end
  | ALazy, OLazy => (s, [], Some (HLazy s))
  end.

End Lazy.

Arguments larg : clear implicits.
Arguments lz : clear implicits.

(** Output parameters: out.hpp lines 47-146, inout.hpp lines 49-65.  Variables
    are cells of a memory; a wrapper is the reference it holds, which never
    changes.  Wrappers have names so that programs can use them again. *)
Inductive okind := KOut | KInout.

Record owrap := MkWrap { w_kind : okind; w_cell : nat }.

Inductive oop :=
  | OpNew (k : okind) (x : nat)       (* a new wrapper out{x} or inout{x} *)
  | OpPass (k : okind) (w : nat)      (* a new wrapper built from wrapper w *)
  | OpAssign (w : nat) (v : Z)        (* w = v *)
  | OpAssignWrap (w u : nat)          (* w = u, both wrappers *)
  | OpRead (w : nat)                  (* int y = w *)
  | OpArrow (w : nat) (v : Z).        (* the object at operator-> is set to v *)

(** Whether a wrapper of one kind is built from a wrapper of another: out.hpp
    lines 66-70 (from out, and so from inout, which derives from it), inout.hpp
    lines 53-62 (from inout only: the first constructor excludes all wrappers). *)
Definition wrap_from (target source : okind) : bool :=
  match target, source with
  | KInout, KOut => false
  | _, _ => true
  end.

Fixpoint zset (l : list Z) (i : nat) (v : Z) : list Z :=
  match l, i with
  | [], _ => []
  | _ :: r, O => v :: r
  | x :: r, S j => x :: zset r j v
  end.

(** One statement; None when it does not compile or names what does not exist.
    The last component is what the statement yields: the reference that
    operator= returns (out.hpp lines 122-126) read after the assignment, or the
    value read. *)
Definition ostep (mem : list Z) (ws : list owrap) (o : oop)
  : option (list Z * list owrap * option Z) :=
  match o with
  | OpNew k x =>
      match nth_error mem x with
      | None => None
      | Some _ => Some (mem, ws ++ [MkWrap k x], None)
      end
  | OpPass k w =>
      match nth_error ws w with
      | None => None
      | Some u =>
          if wrap_from k (w_kind u)
          then Some (mem, ws ++ [MkWrap k (w_cell u)], None)
          else None
      end
  | OpAssign w v =>
      match nth_error ws w with
      | None => None
      | Some u =>
          let mem' := zset mem (w_cell u) v in
          Some (mem', ws, nth_error mem' (w_cell u))
      end
  | OpAssignWrap w u =>
      match nth_error ws w, nth_error ws u with
      | Some a, Some b =>
          match nth_error mem (w_cell b) with
          | None => None
          | Some v =>
              let mem' := zset mem (w_cell a) v in
              Some (mem', ws, nth_error mem' (w_cell a))
          end
      | _, _ => None
      end
  | OpRead w =>
      match nth_error ws w with
      | None => None
      | Some u => Some (mem, ws, nth_error mem (w_cell u))
      end
  | OpArrow w v =>
      match nth_error ws w with
      | None => None
      | Some u => Some (zset mem (w_cell u) v, ws, None)
      end
  end.

Fixpoint orun (mem : list Z) (ws : list owrap) (os : list oop)
  : option (list Z * list owrap * list (option Z)) :=
  match os with
  | [] => Some (mem, ws, [])
  | o :: r =>
      match ostep mem ws o with
      | None => None
      | Some (mem1, ws1, x) =>
          match orun mem1 ws1 r with
          | None => None
          | Some (mem2, ws2, xs) => Some (mem2, ws2, x :: xs)
          end
      end
  end.
