(** Colours, cycles and predecessor edges: C116. *)
From Coq Require Import ZArith List Bool PeanoNat Lia.
From Verif Require Import Outcome GraphModel DfsProofs DfsResults BfsProofs ColorProofs GraphExamples.
Import ListNotations.

(** C116.  The recorder of colours alone drives a search: whatever the map held
    before, the search ends, and exactly the reachable vertices are black. *)
Theorem C116_bfs_colors : forall g src m, wf_graph g -> NoDup src -> (forall v, In v src -> v < g_n g) ->
  exists k m', (forall f, k <= f -> bfs (to_visitor color_recorder) g always_false f m src = Ok m') /\
    forall v, v < g_n g -> ((exists s, In s src /\ reach g s v) -> m' v = Black) /\
                           (~ (exists s, In s src /\ reach g s v) -> m' v = White).
Proof. exact bfs_colors. Qed.
Print Assumptions C116_bfs_colors.
Theorem C116_dfs_colors : forall g u m, wf_graph g -> u < g_n g ->
  exists k m', (forall f, k <= f -> dfs_from (to_visitor color_recorder) g always_false f m u = Ok m') /\
    forall v, v < g_n g -> (reach g u v -> m' v = Black) /\ (~ reach g u v -> m' v = White).
Proof. exact dfs_colors. Qed.
Print Assumptions C116_dfs_colors.
Theorem C116_dfs_all_colors : forall g m, wf_graph g ->
  exists k m', (forall f, k <= f -> dfs_all (to_visitor color_recorder) g always_false f m = Ok m') /\
    forall v, v < g_n g -> m' v = Black.
Proof. exact dfs_all_colors. Qed.
Print Assumptions C116_dfs_all_colors.
(** A vertex is gray from its discovery to its finish: a non-tree edge to a gray
    vertex is met during a depth-first search of the whole graph if and only if
    the graph has a cycle. *)
Theorem C116_gray_cycle : forall g m, wf_graph g ->
  exists k m' b, (forall f, k <= f -> dfs_all (to_visitor gray_watcher) g always_false f (m, false) = Ok (m', b)) /\
    (b = true <-> exists u v, arc g u v /\ reach g v u).
Proof. exact dfs_gray_cycle. Qed.
Print Assumptions C116_gray_cycle.
Definition g116 := directed 5 [(0, 1); (0, 2); (1, 2); (3, 0); (3, 4)].
Definition g116c := directed 5 [(0, 1); (0, 2); (1, 2); (2, 3); (3, 1); (3, 4)].
Definition colors_of (n : nat) (m : nat -> color) : list color := map m (seq 0 n).
Example C116_case : wf_graph g116 /\ wf_graph g116c /\
  omap (colors_of 5) (bfs (to_visitor color_recorder) g116 always_false 30 (fun _ => Gray) [1; 0]) = Ok [Black; Black; Black; White; White] /\
  omap (colors_of 5) (dfs_from (to_visitor color_recorder) g116 always_false 30 (fun _ => Black) 1) = Ok [White; Black; Black; White; White] /\
  omap snd (dfs_all (to_visitor gray_watcher) g116 always_false 30 (fun _ => Gray, false)) = Ok false /\
  omap snd (dfs_all (to_visitor gray_watcher) g116c always_false 30 (fun _ => Gray, false)) = Ok true.
Proof.
  split; [now apply directed_wf|]. split; [now apply directed_wf|]. repeat (split; [vm_compute; reflexivity|]). vm_compute; reflexivity.
Qed.

(** The recorded edges lead from a source to every reachable vertex, for a
    breadth-first search by a shortest path.  For the sources and the vertices
    that are not reachable the map keeps what it held before the search. *)
Theorem C116_bfs_predecessor_edges : forall g src pe fl, wf_graph g -> NoDup src -> (forall v, In v src -> v < g_n g) ->
  exists k pe' fl', (forall f, k <= f -> bfs (with_flag predecessor_edge_recorder) g always_false f (pe, fl) src = Ok (pe', fl')) /\
    (forall v s, In s src -> reach g s v -> exists r n, In r src /\ edge_path g pe' r n v /\ distance_is g src v n) /\
    (forall v, In v src \/ ~ (exists s, In s src /\ reach g s v) -> pe' v = pe v).
Proof. exact bfs_predecessor_edges. Qed.
Print Assumptions C116_bfs_predecessor_edges.
Theorem C116_dfs_predecessor_edges : forall g u pe fl, wf_graph g -> u < g_n g ->
  exists k pe' fl', (forall f, k <= f -> dfs_from (with_flag predecessor_edge_recorder) g always_false f (pe, fl) u = Ok (pe', fl')) /\
    (forall v, reach g u v -> exists n, edge_path g pe' u n v) /\
    (forall v, v = u \/ ~ reach g u v -> pe' v = pe v).
Proof. exact dfs_predecessor_edges. Qed.
Print Assumptions C116_dfs_predecessor_edges.
Definition edges_of (n : nat) (s : (nat -> option edge) * (nat -> bool)) := map (fun v => option_map (fun e => (e_src e, e_tgt e)) (fst s v)) (seq 0 n).
Example C116_edges_case :
  omap (edges_of 5) (bfs (with_flag predecessor_edge_recorder) g116c always_false 30 (fun _ => None, fun _ => true) [0]) =
    Ok [None; Some (0, 1); Some (0, 2); Some (2, 3); Some (3, 4)] /\
  omap (edges_of 5) (dfs_from (with_flag predecessor_edge_recorder) g116c always_false 30 (fun _ => None, fun _ => true) 0) =
    Ok [None; Some (0, 1); Some (1, 2); Some (2, 3); Some (3, 4)].
Proof. split; vm_compute; reflexivity. Qed.
