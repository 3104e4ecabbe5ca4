(** Searches with a terminator: C102. *)
From Coq Require Import ZArith List Bool PeanoNat Lia.
From Verif Require Import Outcome GraphModel DfsProofs DfsResults BfsProofs TermProofs GraphExamples.
Import ListNotations.

(** C102.  [t0] is what a search without a terminator reports; the search with
    one reports the same if no terminator is reachable, and otherwise the part
    of [t0] up to the discovery of a terminator, which is one of the nearest. *)
Theorem C102_bfs : forall g src term, wf_graph g -> NoDup src -> (forall v, In v src -> v < g_n g) ->
  exists t0 t,
    (forall S (c : component S) s m, c_disc c = None -> exists m' k, forall f, k <= f ->
       bfs (with_flag c) g always_false f (s, m) src = Ok (crun c (init_events g ++ t0) s, m')) /\
    (forall S (c : component S) s m, c_disc c = None -> exists m' k, forall f, k <= f ->
       bfs (with_flag c) g term f (s, m) src = Ok (crun c (init_events g ++ t) s, m')) /\
    ((forall x s, In s src -> reach g s x -> term x = false) -> t = t0) /\
    (forall y s, In s src -> reach g s y -> term y = true ->
      exists a x b, t0 = a ++ EDiscover x :: b /\ t = a ++ [EDiscover x; ESearchFinish (Some x)] /\
        term x = true /\ (forall z, In z (discovers a) -> term z = false) /\
        exists n, distance_is g src x n /\ forall z d, term z = true -> distance_is g src z d -> n <= d).
Proof. exact bfs_terminator. Qed.
Print Assumptions C102_bfs.
(** The recorded predecessors lead from the terminator back to a source along a
    shortest path. *)
Theorem C102_bfs_path : forall g src term p, wf_graph g -> NoDup src -> (forall v, In v src -> v < g_n g) ->
  forall y s, In s src -> reach g s y -> term y = true ->
  exists k p', (forall f, k <= f -> bfs pred_visitor g term f p src = Ok p') /\
    exists x r n, term x = true /\ In r src /\ pred_chain g p' r n x /\ distance_is g src x n /\
      forall z d, term z = true -> distance_is g src z d -> n <= d.
Proof. exact bfs_terminator_path. Qed.
Print Assumptions C102_bfs_path.
Theorem C102_dfs : forall g u term, wf_graph g -> u < g_n g ->
  exists t0 t,
    (forall S (c : component S) s m, c_disc c = None -> exists m' k, forall f, k <= f ->
       dfs_from (with_flag c) g always_false f (s, m) u = Ok (crun c (init_events g ++ t0) s, m')) /\
    (forall S (c : component S) s m, c_disc c = None -> exists m' k, forall f, k <= f ->
       dfs_from (with_flag c) g term f (s, m) u = Ok (crun c (init_events g ++ t) s, m')) /\
    ((forall x, reach g u x -> term x = false) -> t = t0) /\
    (forall y, reach g u y -> term y = true ->
      exists a x b, t0 = a ++ EStart x :: b /\ t = a ++ [EStart x; ESearchFinish (Some x)] /\
        term x = true /\ reach g u x /\ (forall z, In z (starts a) -> term z = false)).
Proof. exact dfs_terminator. Qed.
Print Assumptions C102_dfs.
Theorem C102_dfs_path : forall g u term p, wf_graph g -> u < g_n g -> forall y, reach g u y -> term y = true ->
  exists k p', (forall f, k <= f -> dfs_from pred_visitor g term f p u = Ok p') /\
    exists x n, term x = true /\ pred_chain g p' u n x.
Proof. exact dfs_terminator_path. Qed.
Print Assumptions C102_dfs_path.
Definition g102 := directed 6 [(0, 1); (0, 2); (1, 3); (3, 4); (2, 4); (4, 5)].
Definition log102 : component (list event) := {| c_step := fun ev l => l ++ [ev]; c_disc := None |}.
Example C102_case : wf_graph g102 /\ NoDup [0] /\ reach g102 0 4 /\
  omap (fun r => discovers (fst r)) (bfs (with_flag log102) g102 (fun v => 4 <=? v) 9 ([], fun _ => false) [0]) = Ok [0; 1; 2; 3; 4] /\
  omap (fun r => starts (fst r)) (dfs_from (with_flag log102) g102 (fun v => 4 <=? v) 20 ([], fun _ => false) 0) = Ok [0; 1; 3; 4] /\
  omap (fun p => map p (vertices g102)) (bfs pred_visitor g102 (fun v => 4 <=? v) 9 (fun _ => None) [0]) =
    Ok [Some 0; Some 0; Some 0; Some 1; Some 2; None] /\
  omap (fun p => map p (vertices g102)) (dfs_from pred_visitor g102 (fun v => 4 <=? v) 20 (fun _ => None) 0) =
    Ok [Some 0; Some 0; None; Some 1; Some 3; None].
Proof.
  split; [now apply directed_wf|]. split; [repeat constructor; easy|]. split; [|now repeat split].
  apply reach_step with 2; [apply reach_step with 0; [apply reach_refl|]|].
  - exists {| e_id := 1; e_src := 0; e_tgt := 2 |}. cbn. tauto.
  - exists {| e_id := 4; e_src := 2; e_tgt := 4 |}. cbn. tauto.
Qed.
(** Finding: the search over the whole graph goes on after a terminator. *)
Theorem C102_whole_graph_refuted : ~ forall g term f s m l m', wf_graph g ->
  dfs_all (with_flag log102) g term f (s, m) = Ok (l, m') ->
  forall a x y b, starts l = a ++ x :: y :: b -> term x = false.
Proof.
  intros H.
  assert (W : wf_graph g102) by now apply directed_wf.
  destruct (dfs_all (with_flag log102) g102 (fun v => v =? 1) 20 ([], fun _ => false)) as [[l m'] | | | |] eqn:E; try discriminate E.
  specialize (H g102 (fun v => v =? 1) 20 [] (fun _ => false) l m' W E [0] 1 2 [4; 5; 3]).
  assert (S : starts l = [0; 1; 2; 4; 5; 3]) by (apply (f_equal (omap (fun r => starts (fst r)))) in E; vm_compute in E; vm_compute; congruence).
  discriminate (H S).
Qed.
Print Assumptions C102_whole_graph_refuted.
(** There vertex 2 is reported as a root although it can be reached from 0. *)
Example C102_case_roots :
  omap (fun p => map p (vertices g102)) (dfs_all pred_visitor g102 (fun v => v =? 1) 20 (fun _ => None)) =
    Ok [Some 0; Some 0; Some 2; Some 3; Some 2; Some 4].
Proof. reflexivity. Qed.
