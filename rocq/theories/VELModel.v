(** Model of include/actl/graph/vertex_edge_list.hpp: an edge list that owns its vertices, kept
    either in a random access sequence ([wop], a vertex is an int) or in an ordered set ([sop], a
    vertex is the iterator of a node).  Data of vertices and edges are numbers. *)
From Coq Require Import ZArith List Bool Arith.
From Verif Require Import Outcome.
Import ListNotations.

(** graph/edge_list.hpp:79-88 over any type of vertices, of which only equality and [<] are used.
    An element is (u, v, data), the id of an edge is the position at which it was added.
    [unique] stands for an associative container of edges. *)
Section Edges.
  Context {V : Type} (eqb before : V -> V -> bool) (und unique : bool).

  Definition order (u v : V) : V * V :=                                        (* 81-84 *)
    if und && before v u then (v, u) else (u, v).

  Definition same_ends (u v : V) (x : V * V * nat) : bool :=
    eqb (fst (fst x)) u && eqb (snd (fst x)) v.

  Fixpoint position (u v : V) (l : list (V * V * nat)) : nat :=
    match l with
    | [] => 0
    | x :: r => if same_ends u v x then 0 else S (position u v r)
    end.

  Definition try_add (l : list (V * V * nat)) (u v : V) (p : nat) :
      list (V * V * nat) * (V * V * nat * bool) :=
    let '(a, b) := order u v in
    if unique && existsb (same_ends a b) l
    then (l, (a, b, position a b l, false))
    else (l ++ [(a, b, p)], (a, b, length l, true)).                           (* 85-87 *)
End Edges.

(** ** Vertices in a vector *)

(* graph/vertex_edge_list.hpp:19-23 *)
Record wgraph := { w_vs : list nat; w_es : list (Z * Z * nat) }.

(** vertex_list.hpp:67-71 with a non-negative argument: std::vector::resize *)
Definition resize (l : list nat) (n : nat) : list nat := firstn n l ++ repeat 0 (n - length l).

Definition int_max : Z := (2 ^ 31 - 1)%Z.

(** vertex_edge_list.hpp:33-41: the greatest int plus one is undefined. *)
Definition w_add_edge (und unique : bool) (g : wgraph) (u v : Z) (p : nat) :
    outcome (wgraph * (Z * Z * nat * bool)) :=
  let n := Z.max u v in
  do vs <- (if (Z.of_nat (length (w_vs g)) <=? n)%Z
            then if (n =? int_max)%Z then UB else Ok (resize (w_vs g) (Z.to_nat (n + 1)))
            else Ok (w_vs g));
  let '(es, r) := try_add Z.eqb Z.ltb und unique (w_es g) u v p in
  Ok ({| w_vs := vs; w_es := es |}, r).

(** container_id.hpp:149-162, id_at with its check *)
Definition w_read (g : wgraph) (u : Z) : outcome nat :=
  assert_then ((0 <=? u) && (u <? Z.of_nat (length (w_vs g))))%Z
    (match nth_error (w_vs g) (Z.to_nat u) with Some x => Ok x | None => UB end).

Fixpoint put (l : list nat) (i x : nat) : list nat :=
  match l, i with
  | [], _ => []
  | _ :: r, 0 => x :: r
  | y :: r, S i => y :: put r i x
  end.

Inductive wop :=
| WEdge (u v : Z) (p : nat)        (* try_add_edge *)
| WVertex (x : nat)                (* try_add_vertex, vertex_list.hpp:88-91 *)
| WWrite (u : Z) (x : nat)         (* g[u] = x, vertex_list.hpp:34-36 *)
| WResize (n : nat).               (* vertex_list.hpp:67-71 *)

Inductive wreply := REdge (e : Z * Z * nat * bool) | RVertex (u : Z) | RNone.

Definition w_step (und unique : bool) (g : wgraph) (o : wop) : outcome (wgraph * wreply) :=
  match o with
  | WEdge u v p =>
      do (g', r) <- w_add_edge und unique g u v p;
      Ok (g', REdge r)
  | WVertex x =>
      Ok ({| w_vs := w_vs g ++ [x]; w_es := w_es g |}, RVertex (Z.of_nat (length (w_vs g))))
  | WWrite u x =>
      assert_then ((0 <=? u) && (u <? Z.of_nat (length (w_vs g))))%Z
        (Ok ({| w_vs := put (w_vs g) (Z.to_nat u) x; w_es := w_es g |}, RNone))
  | WResize n => Ok ({| w_vs := resize (w_vs g) n; w_es := w_es g |}, RNone)
  end.

Fixpoint w_run (und unique : bool) (g : wgraph) (h : list wop) : outcome (wgraph * list wreply) :=
  match h with
  | [] => Ok (g, [])
  | o :: h =>
      do (g1, r) <- w_step und unique g o;
      do (g2, rs) <- w_run und unique g1 h;
      Ok (g2, r :: rs)
  end.

(** vertex_list.hpp:57-61, the constructor from a number of vertices *)
Definition w_init (n : nat) : wgraph := {| w_vs := resize [] n; w_es := [] |}.

(** ** Vertices in a set *)

(** The nodes of std::set in order, each a value and an identity; identities are given out in order of
    creation, their order by address is the parameter [before] of the operations.
    Simplification: the search goes over the nodes in order instead of down the tree. *)
(* vertex_edge_list.hpp:19-23, vertex_list.hpp; [insert] is std::set::insert. *)
Record sgraph := { s_vs : list (Z * nat); s_es : list (nat * nat * nat) }.

Fixpoint insert (x : Z) (h : nat) (l : list (Z * nat)) : list (Z * nat) * nat :=
  match l with
  | [] => ([(x, h)], h)
  | (y, k) :: r =>
      if (x <? y)%Z then ((x, h) :: l, h)
      else if (y <? x)%Z then let '(r', k') := insert x h r in ((y, k) :: r', k')
      else (l, k)
  end.

(** vertex_list.hpp:88-96 *)
Definition add_vertex (l : list (Z * nat)) (x : Z) : list (Z * nat) * nat := insert x (length l) l.

(** vertex_edge_list.hpp:48-57; the order in which the two arguments are evaluated is not
    specified, [first] tells whether the left one is evaluated first. *)
Definition s_add_values (before : nat -> nat -> bool) (und unique : bool) (first : bool)
    (g : sgraph) (x y : Z) (p : nat) : sgraph * (nat * nat * nat * bool) :=
  let '(vs, u, v) :=
    if first
    then let '(l1, u) := add_vertex (s_vs g) x in let '(l2, v) := add_vertex l1 y in (l2, u, v)
    else let '(l1, v) := add_vertex (s_vs g) y in let '(l2, u) := add_vertex l1 x in (l2, u, v) in
  let '(es, r) := try_add Nat.eqb before und unique (s_es g) u v p in
  ({| s_vs := vs; s_es := es |}, r).

(** container_id.hpp:158-168, id_at of an iterator of a set *)
Fixpoint s_read (l : list (Z * nat)) (h : nat) : outcome Z :=
  match l with
  | [] => UB
  | (x, k) :: r => if h =? k then Ok x else s_read r h
  end.

(** g[u] = x, vertex_list.hpp:34-36 through the cast of container_id.hpp:164-167 *)
Definition s_write (g : sgraph) (h : nat) (x : Z) : sgraph :=
  {| s_vs := map (fun n => if h =? snd n then (x, h) else n) (s_vs g); s_es := s_es g |}.

(** Additions of edges by values, with the order of evaluation at each call *)
(* A client of vertex_edge_list.hpp:33-57. *)
Fixpoint s_run (before : nat -> nat -> bool) (und unique : bool) (g : sgraph)
    (h : list (Z * Z * nat)) (firsts : list bool) : sgraph * list (nat * nat * nat * bool) :=
  match h, firsts with
  | (x, y, p) :: h, first :: firsts =>
      let '(g1, r) := s_add_values before und unique first g x y p in
      let '(g2, rs) := s_run before und unique g1 h firsts in
      (g2, r :: rs)
  | _, _ => (g, [])
  end.

Definition s_init : sgraph := {| s_vs := []; s_es := [] |}.
