(** Model of include/actl/graph/default_map.hpp over the adjacency lists of AdjModel.v, with the maps
    of map/generic_container.hpp and map/pair_associative_container.hpp. *)
From Coq Require Import List Bool PeanoNat.
From Verif Require Import Outcome AdjModel MapModel.
Import ListNotations.

Section DefMap.
  Context {T : Type} (dflt : T).

  (** std::vector<T> or std::map<key, T> *)
  (* graph/default_map.hpp:17-33 *)
  Inductive dmap (K : Type) : Type := DVec (l : list T) | DMap (l : list (K * T)).
  Arguments DVec {K}. Arguments DMap {K}.

  (** generic_container.hpp:48-52 with container_id.hpp:149-168 for the vector,
      pair_associative_container.hpp:31-35 for the map; [idx] is the conversion of a key to the index
      of a vector, [keq] the equivalence of keys of the map. *)
  Definition dm_get {K} (idx : K -> nat) (keq : K -> K -> bool) (m : dmap K) (k : K) : outcome T :=
    match m with
    | DVec l => at_id l (idx k)
    | DMap l => Ok (pac_get keq dflt l k)
    end.

  (** map/traits.hpp:126-133 ([get(map, key) = value]) for the vector,
      pair_associative_container.hpp:37-39 for the map. *)
  Definition dm_put {K} (idx : K -> nat) (keq : K -> K -> bool) (m : dmap K) (k : K) (x : T) : outcome (dmap K) :=
    match m with
    | DVec l => do _ <- at_id l (idx k); Ok (DVec (set_nth (idx k) x l))
    | DMap l => Ok (DMap (pac_put keq l k x))
    end.

  (** default_map.hpp:17-24; [ra]: the vertices are kept in a random access container. Vertices of
      other containers are ids of nodes, numbered here. *)
  Definition make_default_vertex_map (ra : bool) (g : graph) : dmap nat :=
    if ra then DVec (repeat dflt (vertex_count g)) else DMap [].
  Definition vm_get : dmap nat -> nat -> outcome T := dm_get (fun u => u) Nat.eqb.
  Definition vm_put : dmap nat -> nat -> T -> outcome (dmap nat) := dm_put (fun u => u) Nat.eqb.

  (** default_map.hpp:26-33; without a container of edges [edge_container] is none
      (adjacency_list.hpp:236). An edge converts to its id (edge.hpp:43-45), std::map compares ids
      (edge.hpp:47-49). *)
  Definition make_default_edge_map (ra : bool) (c : config) (g : graph) : dmap edge :=
    if ra && negb (sel_none c) then DVec (repeat dflt (edge_count g)) else DMap [].
  Definition em_get (c : config) : dmap edge -> edge -> outcome T := dm_get e_bundle (edge_eqb c).
  Definition em_put (c : config) : dmap edge -> edge -> T -> outcome (dmap edge) := dm_put e_bundle (edge_eqb c).

  (** A sequence of writes *)
  (* A client of the maps made at default_map.hpp:17-33. *)
  Fixpoint dm_puts {K} (put : dmap K -> K -> T -> outcome (dmap K)) (m : dmap K) (ws : list (K * T)) : outcome (dmap K) :=
    match ws with
    | [] => Ok m
    | (k, x) :: ws => do m <- put m k x; dm_puts put m ws
    end.
End DefMap.
Arguments DVec {T K}. Arguments DMap {T K}.
