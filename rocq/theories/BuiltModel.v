(** The searches of GraphModel.v run on the adjacency lists of AdjModel.v. *)
From Coq Require Import List.
From Verif Require Import Outcome GraphModel.
From Verif Require AdjModel.
Import ListNotations.

(** What a search sees of an adjacency list: breadth_first_search.hpp:68 and
    depth_first_search.hpp:33-43, 117 walk over out_edges(u) (adjacency_list.hpp:294-299) of an edge
    they take source() and target(), recorders also store it (detail/edge.hpp:13-67).
    Only vertices of the graph are asked for. *)
Definition view (c : AdjModel.config) (g : AdjModel.graph) : graph := {|
  g_n := AdjModel.vertex_count g;
  g_out := fun u =>
    match AdjModel.out_edges c g u with
    | Ok es => map (fun e => {| e_id := AdjModel.e_bundle e; e_src := AdjModel.e_source e;
                                e_tgt := AdjModel.e_target e |}) es
    | _ => []
    end |}.
