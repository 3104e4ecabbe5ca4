(** Adjacency list and edge list: include/actl/graph/adjacency_list.hpp,
    graph/edge_list.hpp and graph/detail/*.

    Simplifications.
    - Vertices are the [int] ids of a random access vertex container, taken as
      natural numbers; the id [n + 1] never overflows.
    - Bundles (edge properties) are natural numbers: the code only moves them.
    - An out-edge container is either a sequence ([std::vector]) or a unique
      associative container keyed by the target vertex ([c_unique]).  The id of
      an element is the position at which it was inserted (elements are never
      removed by an adjacency list, so positions are stable); the iteration
      order of the associative container is abstracted to insertion order.
    - The edge container is a sequence; an edge id is an index in it. *)
From Coq Require Import ZArith List Bool Arith Lia.
From Verif Require Import Outcome.
Import ListNotations.

(** graph/detail/edge_list_traits.hpp: what is remembered about the end points
    of an edge, for integral vertex types (any integer, two's complement). *)
Section EdgeVertices.
  Local Open Scope Z_scope.
  Definition directed_one (u v : Z) : Z := v.                          (* 27 *)
  Definition directed_one_other (x t : Z) : Z := x.                    (* 29-31 *)
  Definition one_vertex (u v : Z) : Z := Z.lxor u v.                   (* 38 *)
  Definition one_vertex_other (x t : Z) : Z := Z.lxor t x.             (* 47-49 *)
  Definition two_vertices (u v : Z) : Z * Z := (u, v).                 (* 56 *)
  Definition two_vertices_other (x : Z * Z) (t : Z) : Z :=             (* 58-63, integral *)
    Z.lxor (Z.lxor t (fst x)) (snd x).
  (** 61-62: vertices that are not integers (pointers, ids of list nodes). *)
  Definition two_vertices_other_ptr {V} (eqb : V -> V -> bool) (x : V * V) (t : V) : V :=
    if eqb t (fst x) then snd x else fst x.
End EdgeVertices.

Inductive dir := Directed | Undirected | Bidirectional.
(** [graph::list_value_t<EC>]: none, edge_property, one_vertex, two_vertices. *)
(* The classes of graph/selectors.hpp:14-22 and graph/detail/list_value.hpp; [sel_none] is [none],
   core/none.hpp:15. *)
Inductive selector := SelNone | SelProperty | SelOne | SelTwo.

Record config := { c_dir : dir; c_unique : bool; c_sel : selector }.

Definition is_undirected (c : config) : bool :=
  match c_dir c with Undirected => true | _ => false end.
Definition is_bidirectional (c : config) : bool :=
  match c_dir c with Bidirectional => true | _ => false end.
Definition sel_none (c : config) : bool :=
  match c_sel c with SelNone => true | _ => false end.

(** adj_list_traits.hpp:42-44 *)
Definition has_out_vertex (c : config) : bool :=
  c_unique c || match c_sel c with SelNone | SelProperty => true | _ => false end.

(** detail/edge.hpp:13-67 *)
Record edge := { e_source : nat; e_target : nat; e_bundle : nat }.
Definition default_edge : edge := {| e_source := 0; e_target := 0; e_bundle := 0 |}.
(** edge.hpp:35-41, [CompareSource] holds without an edge container. *)
Definition edge_id (c : config) (e : edge) : nat * nat :=
  if sel_none c then (e_source e, e_bundle e) else (0, e_bundle e).
(** edge.hpp:53-55 *)
Definition edge_eqb (c : config) (e f : edge) : bool :=
  (fst (edge_id c e) =? fst (edge_id c f)) && (snd (edge_id c e) =? snd (edge_id c f)).
(** adj_list_iterators.hpp:17-21 *)
Definition edge_inverter (e : edge) : edge :=
  {| e_source := e_target e; e_target := e_source e; e_bundle := e_bundle e |}.

(** edge_list_traits.hpp:18-83 *)
Inductive edge_vertices :=
| EvNone
| EvTarget (v : nat)
| EvXor (x : nat)
| EvTwo (u v : nat).

Definition make_vertices (c : config) (u v : nat) : edge_vertices :=
  match c_sel c with
  | SelNone | SelProperty => EvNone                                     (* 20 *)
  | SelOne => match c_dir c with
              | Directed => EvTarget v                                  (* 27 *)
              | _ => EvXor (Nat.lxor u v)                               (* 38 *)
              end
  | SelTwo => EvTwo u v                                                 (* 56 *)
  end.

Definition other (x : edge_vertices) (t : nat) : nat :=
  match x with
  | EvNone => 0              (* no such member function *)
  | EvTarget v => v                                                     (* 29-31 *)
  | EvXor x => Nat.lxor t x                                             (* 47-49 *)
  | EvTwo u v => Nat.lxor (Nat.lxor t u) v                              (* 58-60 *)
  end.

(** mimic_pair<out_edge_vertex, bundle, 1>: adj_list_traits.hpp:53,65. *)
Record entry := { en_first : option nat; en_second : nat }.
Record vertex_data := { vd_outs : list entry; vd_ins : list entry }.
Record graph := {
  g_vertices : list vertex_data;
  g_edges : list (edge_vertices * nat)
}.
Definition empty_graph (n : nat) : graph :=
  {| g_vertices := repeat {| vd_outs := []; vd_ins := [] |} n; g_edges := [] |}.

Definition vertex_count (g : graph) : nat := length (g_vertices g).
(** adjacency_list.hpp:278-280, edge_list.hpp:75-77, dummy_container.hpp:32-34 *)
Definition edge_count (g : graph) : nat := length (g_edges g).

(** container_id.hpp:149-177 *)
Definition at_id {A} (l : list A) (i : nat) : outcome A :=
  match nth_error l i with Some a => Ok a | None => AssertFail end.

Fixpoint set_nth {A} (i : nat) (a : A) (l : list A) : list A :=
  match l, i with
  | [], _ => []
  | _ :: r, 0 => a :: r
  | x :: r, S j => x :: set_nth j a r
  end.

(** adj_list_vertices.hpp:64-86 *)
Definition outs (g : graph) (u : nat) : outcome (list entry) :=
  omap vd_outs (at_id (g_vertices g) u).
Definition ins (g : graph) (u : nat) : outcome (list entry) :=
  omap vd_ins (at_id (g_vertices g) u).
Definition set_outs (g : graph) (u : nat) (l : list entry) : outcome graph :=
  do d <- at_id (g_vertices g) u;
  Ok {| g_vertices := set_nth u {| vd_outs := l; vd_ins := vd_ins d |} (g_vertices g);
        g_edges := g_edges g |}.
Definition set_ins (g : graph) (u : nat) (l : list entry) : outcome graph :=
  do d <- at_id (g_vertices g) u;
  Ok {| g_vertices := set_nth u {| vd_outs := vd_outs d; vd_ins := l |} (g_vertices g);
        g_edges := g_edges g |}.

(** mimic_pair.hpp:62-66 with a plain vertex. *)
Definition has_key (v : nat) (x : entry) : bool :=
  match en_first x with Some w => w =? v | None => false end.

Fixpoint find_key (v : nat) (l : list entry) : nat :=
  match l with
  | [] => 0
  | x :: r => if has_key v x then 0 else S (find_key v r)
  end.

(** container_id.hpp:181-185: a sequence always grows, a unique associative
    container refuses a key that is present. *)
Definition id_emplace (c : config) (l : list entry) (v b : nat) : list entry * (nat * bool) :=
  if c_unique c && existsb (has_key v) l
  then (l, (find_key v l, false))
  else (l ++ [{| en_first := if has_out_vertex c then Some v else None;
                 en_second := b |}],
        (length l, true)).

(** id_at(u_edges, out_edge).second = e, adjacency_list.hpp:109 *)
Definition set_second (l : list entry) (i b : nat) : outcome (list entry) :=
  do x <- at_id l i;
  Ok (set_nth i {| en_first := en_first x; en_second := b |} l).

(** edge_list.hpp:79-93: the edge list never refuses (the container is a
    sequence); undirected edges are stored with ordered end points. *)
Definition el_add_edge (c : config) (l : list (edge_vertices * nat)) (u v p : nat) :
    list (edge_vertices * nat) * nat :=
  let '(a, b) := if is_undirected c && (v <? u) then (v, u) else (u, v) in
  (l ++ [(make_vertices c a b, p)], length l).

(** vertex_list: resize of the vertex container, adjacency_list.hpp:326-330 *)
Definition reserve_vertices (g : graph) (u v : nat) : graph :=
  let n := Nat.max u v in
  if vertex_count g <=? n
  then {| g_vertices := g_vertices g
                        ++ repeat {| vd_outs := []; vd_ins := [] |} (S n - vertex_count g);
          g_edges := g_edges g |}
  else g.

(** adjacency_list.hpp:98-117; [e0] is the indeterminate value of the variable
    declared at line 100. *)
Definition try_add_edge_ec (c : config) (e0 : nat) (g : graph) (u v p : nat) :
    outcome (graph * (edge * bool)) :=
  do ue <- outs g u;
  let '(ue1, (out_edge, ok)) := id_emplace c ue v e0 in
  if negb ok then Ok (g, (default_edge, false)) else
  do g1 <- set_outs g u ue1;
  let '(el, e) := el_add_edge c (g_edges g1) u v p in
  let g2 := {| g_vertices := g_vertices g1; g_edges := el |} in
  do ue2 <- outs g2 u;
  do ue3 <- set_second ue2 out_edge e;
  do g3 <- set_outs g2 u ue3;
  do g4 <- (if is_undirected c then
              if u =? v then Ok g3 else
              do ve <- outs g3 v;
              set_outs g3 v (fst (id_emplace c ve u e))
            else if is_bidirectional c then
              do vi <- ins g3 v;
              set_ins g3 v (fst (id_emplace c vi u e))
            else Ok g3);
  Ok (g4, ({| e_source := u; e_target := v; e_bundle := e |}, true)).

(** adjacency_list.hpp:215-231 *)
Definition try_add_edge_none (c : config) (g : graph) (u v p : nat) :
    outcome (graph * (edge * bool)) :=
  do ue <- outs g u;
  let '(ue1, (out_edge, ok)) := id_emplace c ue v p in
  if negb ok then Ok (g, (default_edge, false)) else
  do g1 <- set_outs g u ue1;
  let g2 := {| g_vertices := g_vertices g1;
               g_edges := fst (el_add_edge c (g_edges g1) u v 0) |} in
  do g3 <- (if is_undirected c then
              if u =? v then Ok g2 else
              do ve <- outs g2 v;
              set_outs g2 v (fst (id_emplace c ve u p))
            else if is_bidirectional c then
              do vi <- ins g2 v;
              set_ins g2 v (fst (id_emplace c vi u out_edge))
            else Ok g2);
  Ok (g3, ({| e_source := u; e_target := v; e_bundle := out_edge |}, true)).

(** adjacency_list.hpp:324-332 *)
Definition try_add_edge (c : config) (e0 : nat) (g : graph) (u v p : nat) :
    outcome (graph * (edge * bool)) :=
  let g := reserve_vertices g u v in
  if sel_none c then try_add_edge_none c g u v p
  else try_add_edge_ec c e0 g u v p.

(** adjacency_list.hpp:79-90 *)
Definition get_edge_data (c : config) (g : graph) (u : nat) (x : entry) : outcome edge :=
  match en_first x with
  | Some v => Ok {| e_source := u; e_target := v; e_bundle := en_second x |}
  | None =>
      do y <- at_id (g_edges g) (en_second x);
      Ok {| e_source := u; e_target := other (fst y) u; e_bundle := en_second x |}
  end.

(** adjacency_list.hpp:92-96 and 207-209 *)
Definition get_edge (c : config) (g : graph) (u i : nat) : outcome edge :=
  do l <- outs g u;
  do x <- at_id l i;
  if sel_none c then
    match en_first x with
    | Some v => Ok {| e_source := u; e_target := v; e_bundle := i |}
    | None => UB
    end
  else get_edge_data c g u x.

Fixpoint collect {A B} (f : A -> outcome B) (l : list A) : outcome (list B) :=
  match l with
  | [] => Ok []
  | x :: r => do y <- f x; do s <- collect f r; Ok (y :: s)
  end.

(** adjacency_list.hpp:294-299 with adj_list_iterators.hpp:23-57 *)
Definition out_edges (c : config) (g : graph) (u : nat) : outcome (list edge) :=
  do l <- outs g u;
  collect (get_edge c g u) (seq 0 (length l)).

(** adjacency_list.hpp:282-284 *)
Definition degree (c : config) (g : graph) (u : nat) : outcome nat :=
  omap (@length edge) (out_edges c g u).

(** adjacency_list.hpp:301-322; lines 211-213 without an edge container.
    There is no in_edges for directed graphs ([AssertFail] here). *)
Definition in_edges (c : config) (g : graph) (u : nat) : outcome (list edge) :=
  if is_undirected c then omap (map edge_inverter) (out_edges c g u)
  else if is_bidirectional c then
    do l <- ins g u;
    if sel_none c then
      collect (fun x => match en_first x with
                        | Some v => Ok {| e_source := v; e_target := u;
                                          e_bundle := en_second x |}
                        | None => UB
                        end) l
    else omap (map edge_inverter) (collect (get_edge_data c g u) l)
  else AssertFail.

(** adj_list_iterators.hpp:73-86 *)
Fixpoint skip_empty (fuel : nat) (c : config) (g : graph) (u i : nat) : outcome (nat * nat) :=
  match fuel with
  | 0 => NoFuel
  | S f =>
      if u =? vertex_count g then Ok (u, i) else
      do l <- outs g u;
      if i =? length l then
        if S u =? vertex_count g then skip_empty f c g (S u) i
        else skip_empty f c g (S u) 0
      else if is_undirected c then
        do e <- get_edge c g u i;
        if e_target e <? u then skip_empty f c g u (S i) else Ok (u, i)
      else Ok (u, i)
  end.

(** adj_list_iterators.hpp:108-118: the elements seen from position (u, i). *)
Fixpoint edges_from (fuel sf : nat) (c : config) (g : graph) (u i : nat) : outcome (list edge) :=
  match fuel with
  | 0 => NoFuel
  | S f =>
      if u =? vertex_count g then Ok [] else
      do e <- get_edge c g u i;
      do (u1, i1) <- skip_empty sf c g u (S i);
      do r <- edges_from f sf c g u1 i1;
      Ok (e :: r)
  end.

(** adjacency_list.hpp:286-292; the iterator starts at adj_list_iterators.hpp:98-106,
    with two_vertices the edge list is walked: edge_list.hpp:141-177. *)
Definition edges (fuel : nat) (c : config) (g : graph) : outcome (list edge) :=
  match c_sel c with
  | SelTwo =>
      collect (fun i => do x <- at_id (g_edges g) i;
                        match fst x with
                        | EvTwo a b => Ok {| e_source := a; e_target := b; e_bundle := i |}
                        | _ => UB
                        end) (seq 0 (length (g_edges g)))
  | _ =>
      do l <- outs g 0;
      do (u, i) <- skip_empty fuel c g 0 0;
      edges_from fuel fuel c g u i
  end.

(** adjacency_list.hpp:350-360 *)
Definition find_edge (c : config) (g : graph) (u v : nat) : outcome edge :=
  if has_out_vertex c then
    do l <- outs g u;
    get_edge c g u (find_key v l)
  else
    do l <- out_edges c g u;
    match find (fun e => e_target e =? v) l with
    | Some e => Ok e
    | None => Ok default_edge
    end.

(** operator[](edge): adjacency_list.hpp:51-57 with edge_list.hpp:33-47, and
    147-150, 178-184 without an edge container. *)
Definition edge_bundle (c : config) (g : graph) (e : edge) : outcome nat :=
  if sel_none c then
    do l <- outs g (e_source e);
    omap en_second (at_id l (e_bundle e))
  else omap snd (at_id (g_edges g) (e_bundle e)).

(** A history: insertions in order, each with the value found in the
    uninitialised id; the results are collected. *)
(* A client of adjacency_list.hpp; no lines of its own. *)
Fixpoint run (c : config) (g : graph) (h : list (nat * nat * nat)) (e0 : nat -> nat) :
    outcome (graph * list (edge * bool)) :=
  match h with
  | [] => Ok (g, [])
  | (u, v, p) :: r =>
      do (g1, x) <- try_add_edge c (e0 0) g u v p;
      do (g2, xs) <- run c g1 r (fun i => e0 (S i));
      Ok (g2, x :: xs)
  end.

(** Stand-alone edge list, edge_list.hpp:109-205 ([two_vertices] selector);
    [unique] for an associative edge container.  An element is (u, v, bundle);
    its id is its position. *)
Section EdgeList.
  Variable und unique : bool.

  Definition el_order (u v : nat) : nat * nat :=                        (* 81-84, 180-183 *)
    if und && (v <? u) then (v, u) else (u, v).

  Definition el_match (u v : nat) (x : nat * nat * nat) : bool :=       (* traits 73-75 *)
    (fst (fst x) =? u) && (snd (fst x) =? v).

  Fixpoint el_pos (u v : nat) (l : list (nat * nat * nat)) : nat :=
    match l with
    | [] => 0
    | x :: r => if el_match u v x then 0 else S (el_pos u v r)
    end.

  (** edge_list.hpp:79-88 *)
  Definition el_try_add (l : list (nat * nat * nat)) (u v p : nat) :
      list (nat * nat * nat) * (edge * bool) :=
    let '(a, b) := el_order u v in
    if unique && existsb (el_match a b) l
    then (l, ({| e_source := a; e_target := b; e_bundle := el_pos a b l |}, false))
    else (l ++ [(a, b, p)],
          ({| e_source := a; e_target := b; e_bundle := length l |}, true)).

  (** edge_list.hpp:171-177 *)
  Definition el_edges (l : list (nat * nat * nat)) : list edge :=
    map (fun ix => {| e_source := fst (fst (snd ix)); e_target := snd (fst (snd ix));
                      e_bundle := fst ix |}) (combine (seq 0 (length l)) l).

  (** edge_list.hpp:179-187: the id is the end id when there is no such edge. *)
  Definition el_find (l : list (nat * nat * nat)) (u v : nat) : edge :=
    let '(a, b) := el_order u v in
    {| e_source := a; e_target := b; e_bundle := el_pos a b l |}.

  (** edge_list.hpp:189-191: erasing at the end id is undefined. *)
  Definition el_remove (l : list (nat * nat * nat)) (e : edge) : outcome (list (nat * nat * nat)) :=
    if length l <? e_bundle e then AssertFail
    else if e_bundle e =? length l then UB
    else Ok (firstn (e_bundle e) l ++ skipn (S (e_bundle e)) l).

  Fixpoint el_run (l : list (nat * nat * nat)) (h : list (nat * nat * nat)) :
      list (nat * nat * nat) * list (edge * bool) :=
    match h with
    | [] => (l, [])
    | (u, v, p) :: r =>
        let '(l1, x) := el_try_add l u v p in
        let '(l2, xs) := el_run l1 r in
        (l2, x :: xs)
    end.
End EdgeList.
