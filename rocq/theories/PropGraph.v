(** Properties of the graph traversals: C37-C43. *)
From Coq Require Import ZArith List Bool PeanoNat Lia Permutation Sorted.
From Verif Require Import Outcome GraphModel DfsProofs DfsResults BfsProofs GraphExamples.
Import ListNotations.

(** C37.  For every graph, set of sources and component [c] next to the flags:
    the component sees the initialization of all vertices and then [t]. *)
Theorem C37_bfs_reachable : forall g src, wf_graph g -> NoDup src -> (forall v, In v src -> v < g_n g) ->
  exists t,
    (forall v, In v (starts t) <-> exists s, In s src /\ reach g s v) /\
    NoDup (starts t) /\ discovers t = starts t /\ finishes t = starts t /\
    examined t = flat_map (g_out g) (starts t) /\
    forall S (c : component S) s m, c_disc c = None -> exists m' k, forall f, k <= f ->
      bfs (with_flag c) g always_false f (s, m) src = Ok (crun c (init_events g ++ t) s, m').
Proof.
  intros g src wf N L. destruct (bfs_events g src wf N L) as (t & D' & H & E).
  exists (source_events src ++ t).
  destruct (bfs_q_facts _ _ _ _ _ H) as (A & B & C & X & N' & F).
  assert (starts (source_events src) = [] /\ finishes (source_events src) = [] /\ examined (source_events src) = [] /\
    discovers (source_events src) = src) as (S1 & S2 & S3 & S4).
  { clear. induction src as [|a l (A & B & C & D)]; [easy|]. repeat split; try assumption.
    change (a :: discovers (source_events l) = a :: l). now rewrite D. }
  rewrite starts_app, finishes_app, examined_app, discovers_app, S1, S2, S3, S4. cbn [app].
  split; [|split; [|split; [|split; [|split]]]].
  - intro v. rewrite <- (bfs_q_exact g src t D' v H). rewrite B, A, !in_app_iff, <- !in_rev. tauto.
  - rewrite B. apply NoDup_app_intro; auto. intros v Hv Hv2. apply (F v Hv2). now rewrite <- in_rev.
  - now rewrite B.
  - exact C.
  - exact X.
  - exact E.
Qed.
Print Assumptions C37_bfs_reachable.
Definition g37 := directed 5 [(0, 1); (0, 2); (1, 3); (2, 3); (3, 0); (3, 3); (4, 0)].
Example C37_case : wf_graph g37 /\ NoDup [0] /\
  omap fst (bfs (with_flag start_printer) g37 always_false 9 ([], fun _ => true) [0]) = Ok [0; 1; 2; 3].
Proof. split; [now apply directed_wf|]. split; [repeat constructor; easy | reflexivity]. Qed.

(** C38. *)
Theorem C38_bfs_distance : forall g src m, wf_graph g -> NoDup src -> (forall v, In v src -> v < g_n g) ->
  exists k m', (forall f, k <= f -> bfs distance_visitor g always_false f m src = Ok m') /\
    (forall v n, v < g_n g -> m' v = Z.of_nat n <-> distance_is g src v n) /\
    (forall v, v < g_n g -> ~ (exists s, In s src /\ reach g s v) -> m' v = (-1)%Z).
Proof. exact bfs_distance_recorder. Qed.
Print Assumptions C38_bfs_distance.
(** The vertices are discovered in the order of non-decreasing distance. *)
Theorem C38_discovery_order : forall g src, wf_graph g -> NoDup src -> (forall v, In v src -> v < g_n g) ->
  exists t, (forall a v b w c dv dw, discovers t = a ++ v :: b ++ w :: c ->
      distance_is g src v dv -> distance_is g src w dw -> dv <= dw) /\
    forall S (c : component S) s m, c_disc c = None -> exists m' k, forall f, k <= f ->
      bfs (with_flag c) g always_false f (s, m) src = Ok (crun c (init_events g ++ t) s, m').
Proof.
  intros g src wf N L. destruct (bfs_events g src wf N L) as (t & D' & H & E).
  exists (source_events src ++ t). split; [|exact E].
  assert (discovers (source_events src) = src) as S4.
  { clear. induction src as [|a l IH]; [easy|]. change (a :: discovers (source_events l) = a :: l). now rewrite IH. }
  rewrite discovers_app, S4. intros a v b w c dv dw Ed Dv Dw.
  destruct (bfs_distance g wf src t D' (fun _ => 0%Z) N H) as (B & O). cbv zeta in B, O.
  set (m := crun distance_recorder _ _) in *. rewrite Ed in O.
  assert (forall x, In x (src ++ discovers t) -> In x D') as Hi.
  { intros x Hx. destruct (bfs_q_facts _ _ _ _ _ H) as (-> & _). rewrite in_app_iff, <- !in_rev. apply in_app_iff in Hx. tauto. }
  assert (forall x d, In x (src ++ discovers t) -> distance_is g src x d -> m x = Z.of_nat d) as Em.
  { intros x d Hx ((s & Hs & W) & M). destruct (B x (Hi x Hx)) as (H0 & (s' & Hs' & W') & M').
    specialize (M s' _ Hs' W'). specialize (M' s _ Hs W). lia. }
  assert (m v <= m w)%Z as Le.
  { clear - O. induction a as [|x a IH]; cbn in O; inversion_clear O as [|? ? O' F]; [|now apply IH].
    rewrite Forall_forall in F. apply F. rewrite map_app. apply in_app_iff. right. now left. }
  rewrite (Em v dv), (Em w dw) in Le; [lia | | assumption | | assumption]; rewrite Ed; apply in_app_iff; right.
  - right. apply in_app_iff. right. now left.
  - now left.
Qed.
Print Assumptions C38_discovery_order.
Example C38_case : wf_graph g37 /\
  omap (fun m => map m (vertices g37)) (bfs distance_visitor g37 always_false 9 (fun _ => 5%Z) [0]) = Ok [0; 1; 1; 2; -1]%Z /\
  distance_is g37 [0] 3 2.
Proof.
  split; [now apply directed_wf|]. split; [reflexivity|]. split.
  - exists 0. split; [now left|]. apply walk_snoc with 1; [apply walk_snoc with 0; [constructor|]|].
    + exists {| e_id := 0; e_src := 0; e_tgt := 1 |}. cbn. tauto.
    + exists {| e_id := 2; e_src := 1; e_tgt := 3 |}. cbn. tauto.
  - intros s k [<-|[]] W. destruct k as [|[|k]]; [inversion W | | lia].
    inversion_clear W as [|? ? ? W0 (e & He & Et)]. inversion W0; subst v. cbn in He. destruct He as [<-|[<-|[]]]; easy.
Qed.

(** C39. *)
Theorem C39_bfs_predecessors : forall g src p, wf_graph g -> NoDup src -> (forall v, In v src -> v < g_n g) ->
  exists k p', (forall f, k <= f -> bfs pred_visitor g always_false f p src = Ok p') /\
    (forall v, v < g_n g -> (p' v = None <-> ~ exists s, In s src /\ reach g s v)) /\
    (forall v s, In s src -> reach g s v -> exists r n, In r src /\ pred_chain g p' r n v /\ distance_is g src v n).
Proof. exact bfs_predecessor_recorder. Qed.
Print Assumptions C39_bfs_predecessors.
Theorem C39_dfs_predecessors : forall g u p, wf_graph g -> u < g_n g ->
  exists k p', (forall f, k <= f -> dfs_from pred_visitor g always_false f p u = Ok p') /\
    (forall v, v < g_n g -> (p' v = None <-> ~ reach g u v)) /\
    (forall v, reach g u v -> exists n, pred_chain g p' u n v).
Proof. exact dfs_predecessor_recorder. Qed.
Print Assumptions C39_dfs_predecessors.
Example C39_case :
  omap (fun m => map m (vertices g37)) (bfs pred_visitor g37 always_false 9 (fun _ => None) [0]) =
    Ok [Some 0; Some 0; Some 0; Some 1; None] /\
  omap (fun m => map m (vertices g37)) (dfs_from pred_visitor g37 always_false 99 (fun _ => None) 4) =
    Ok [Some 4; Some 0; Some 0; Some 1; Some 4].
Proof. now split. Qed.

(** C40.  Any visitor (it need not be consistent about discovered vertices), any
    terminator: the explicit stack version ends in the state of the recursive
    one followed by on_search_finish. *)
Theorem C40_recursive_to_iterative : forall S (V : visitor S) g term fuel s u s' b,
  recurse V g term fuel u (v_step V (ESearchStart u) s) = Ok (s', b) ->
  exists k x, (if b then term x = true else x = u) /\
    forall fuel', k <= fuel' -> dfs_visit V g term fuel' s u = Ok (v_step V (ESearchFinish (Some x)) s').
Proof. intros S V g term. exact (recursive_iterative V g term). Qed.
Print Assumptions C40_recursive_to_iterative.
Theorem C40_iterative_to_recursive : forall S (V : visitor S) g term fuel s u s'',
  dfs_visit V g term fuel s u = Ok s'' ->
  exists k s' b x, s'' = v_step V (ESearchFinish (Some x)) s' /\ (if b : bool then term x = true else x = u) /\
    forall fuel', k <= fuel' -> recurse V g term fuel' u (v_step V (ESearchStart u) s) = Ok (s', b).
Proof. intros S V g term. exact (iterative_recursive V g term). Qed.
Print Assumptions C40_iterative_to_recursive.
(** A component recording all events. *)
Definition event_log : component (list event) := {| c_step := fun ev l => l ++ [ev]; c_disc := None |}.
Definition log_of {T} (o : outcome (list event * T)) := omap fst o.
Example C40_case :
  omap (fun p => fst (fst p)) (recurse (with_flag event_log) g37 (fun v => v =? 2) 20 4
    (v_step (with_flag event_log) (ESearchStart 4) ([], fun _ => false))) =
  omap (fun p => removelast (fst p)) (dfs_visit (with_flag event_log) g37 (fun v => v =? 2) 99 ([], fun _ => false) 4) /\
  match dfs_visit (with_flag event_log) g37 (fun v => v =? 2) 99 ([], fun _ => false) 4 with
  | Ok (l, _) => length l = 22 /\ last l (EInit 0) = ESearchFinish (Some 2)
  | _ => False
  end.
Proof. split; [reflexivity|]. vm_compute. now split. Qed.

(** C41. *)
Theorem C41_dfs_reachable : forall g u, wf_graph g -> u < g_n g ->
  exists t, (forall v, In v (starts t) <-> reach g u v) /\ NoDup (starts t) /\
    discovers t = starts t /\ Permutation (finishes t) (starts t) /\
    Permutation (examined t) (flat_map (g_out g) (starts t)) /\
    forall S (c : component S) s m, c_disc c = None -> exists m' k, forall f, k <= f ->
      dfs_from (with_flag c) g always_false f (s, m) u =
      Ok (crun c (init_events g ++ ESearchStart u :: t ++ [ESearchFinish (Some u)]) s, m').
Proof.
  intros g u wf Hu. destruct (dfs_from_events g u wf Hu) as (t & D' & H & E). exists t.
  destruct (proj1 (visit_scan_starts g) _ _ _ _ H) as (A & B).
  rewrite A. split; [|split; [|split; [|split; [|split]]]].
  - intro v. now rewrite (white_path g u [] t D' v H), reach_avoid_nil by easy.
  - now apply (proj1 (visit_scan_new g) _ _ _ _ H).
  - reflexivity.
  - exact B.
  - exact (proj1 (visit_scan_examined g) _ _ _ _ H).
  - exact E.
Qed.
Print Assumptions C41_dfs_reachable.
(** Recorded times: the intervals [in, out) of two reached vertices are nested or
    disjoint, nesting implies a path, and an edge never leads to a vertex started
    after its source was finished. *)
Theorem C41_dfs_nested : forall g u s m, wf_graph g -> u < g_n g ->
  exists k s' m', (forall f, k <= f -> dfs_from (with_flag in_out_time_stamper) g always_false f (s, m) u = Ok (s', m')) /\
    let i := in_time s' in let o := out_time s' in
    i u = time_now s /\ o u = time_now s' /\
    (forall v, reach g u v -> (i u <= i v < o v /\ o v <= o u)%Z) /\
    (forall v w, reach g u v -> reach g u w -> v <> w -> i v <> i w /\
       ((o v <= i w)%Z \/ (o w <= i v)%Z \/ (i v < i w /\ o w <= o v)%Z \/ (i w < i v /\ o v <= o w)%Z)) /\
    (forall v w, reach g u v -> reach g u w -> (i v <= i w < o v)%Z -> reach g v w) /\
    (forall v w, reach g u v -> arc g v w -> (i w < o v)%Z).
Proof.
  intros g u s m wf Hu. destruct (dfs_from_events g u wf Hu) as (t & D' & H & E).
  destruct (E _ in_out_time_stamper s m eq_refl) as (m' & k & Ek). exists k.
  assert (crun in_out_time_stamper (init_events g ++ ESearchStart u :: t ++ [ESearchFinish (Some u)]) s = crun stampc t s) as Er.
  { rewrite crun_app. assert (crun in_out_time_stamper (init_events g) s = s) as ->.
    { unfold init_events. now induction (vertices g). }
    change (crun in_out_time_stamper (t ++ [ESearchFinish (Some u)]) s = crun stampc t s). now rewrite crun_app. }
  rewrite Er in Ek. exists (crun stampc t s), m'. split; [exact Ek|].
  assert (forall v, reach g u v <-> In v (discovers t)) as Rd.
  { intro v. now rewrite (white_path g u [] t D' v H), reach_avoid_nil by easy. }
  destruct (proj1 (visit_scan_stamps g wf) _ _ _ _ H (fun x => x) s) as (St & _ & Eu & Eo & _); [easy|].
  cbv zeta. split; [exact Eu|]. split; [exact Eo|]. split; [|split; [|split]].
  - intros v Hv. apply Rd in Hv. pose proof (st_range _ _ _ _ _ St v Hv). rewrite Eu, Eo. tauto.
  - intros v w Hv Hw. apply Rd in Hv, Hw. now apply (st_lam _ _ _ _ _ St).
  - intros v w Hv Hw. apply Rd in Hv, Hw. now apply (st_reach _ _ _ _ _ St).
  - intros v w Hv. apply Rd in Hv. now apply (st_arc _ _ _ _ _ St).
Qed.
Print Assumptions C41_dfs_nested.
Example C41_case :
  omap (fun p => map (fun v => (in_time (fst p) v, out_time (fst p) v)) (vertices g37))
    (dfs_from (with_flag in_out_time_stamper) g37 always_false 99
      ({| in_time := fun _ => (-7)%Z; out_time := fun _ => (-7)%Z; time_now := 0%Z |}, fun _ => true) 4) =
  Ok [(1, 5); (2, 4); (4, 5); (3, 4); (0, 5)]%Z.
Proof. reflexivity. Qed.

(** C42.  As documented in the code the order is reversed: targets come first. *)
Theorem C42_topological_sort : forall g m, wf_graph g ->
  exists k order, (forall f, k <= f -> topological_sort f g m = Ok order) /\
    Permutation order (vertices g) /\
    ((forall u v, arc g u v -> ~ reach g v u) ->
     forall a w b, order = a ++ w :: b -> forall x, arc g w x -> In x a).
Proof. exact topological_sort_ok. Qed.
Print Assumptions C42_topological_sort.
Definition g42 := directed 6 [(0, 1); (0, 2); (1, 3); (2, 3); (4, 2); (5, 4); (5, 0)].
Example C42_case : wf_graph g42 /\ acyclic g42 /\ topological_sort 99 g42 (fun _ => true) = Ok [3; 1; 2; 0; 4; 5].
Proof.
  split; [now apply directed_wf|]. split; [|reflexivity].
  now apply directed_acyclic with (fun v => nth v [3; 1; 2; 0; 4; 5] 0).
Qed.

(** C43. *)
Theorem C43_connected_components : forall g m, wf_graph g -> symmetric g ->
  exists k m' c, (forall f, k <= f -> dfs_all cc_visitor g always_false f (m, 0%Z) = Ok (m', c)) /\
    (forall v w, v < g_n g -> w < g_n g -> m' v = m' w <-> reach g v w) /\
    (forall v, v < g_n g -> (0 <= m' v < c)%Z) /\
    (forall l, (0 <= l < c)%Z -> exists v, v < g_n g /\ m' v = l).
Proof. exact connected_components_ok. Qed.
Print Assumptions C43_connected_components.
Definition g43 := undirected 6 [(0, 2); (2, 4); (4, 0); (1, 5); (5, 5); (1, 5)].
Example C43_case : wf_graph g43 /\ symmetric g43 /\
  omap (fun p => (map (fst p) (vertices g43), snd p)) (dfs_all cc_visitor g43 always_false 99 (fun _ => 9%Z, 0%Z)) =
    Ok ([0; 1; 0; 2; 0; 1], 3)%Z.
Proof. split; [now apply undirected_wf|]. split; [apply undirected_symmetric | reflexivity]. Qed.
