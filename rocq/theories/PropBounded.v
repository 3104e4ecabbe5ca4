(** C140: number of steps and memory of the searches. *)
From Coq Require Import ZArith List Bool PeanoNat Lia Permutation.
From Verif Require Import Outcome GraphModel DfsProofs DfsResults BfsProofs GraphExamples BoundedModel BoundedProofs BoundedTerm.
Import ListNotations.

(** ** Specification *)
(** [L] lists the vertices that can be reached from [src]. *)
Definition reachable_list (g : graph) (src L : list nat) : Prop :=
  NoDup L /\ forall v, In v L <-> exists s, In s src /\ reach g s v.
Definition out_degrees (g : graph) (L : list nat) : nat := length (flat_map (g_out g) L).

Lemma same_elements (a b : list nat) : NoDup a -> NoDup b -> (forall v, In v a <-> In v b) -> Permutation a b.
Proof. apply NoDup_Permutation. Qed.
Lemma length_flat_map_perm {T} (f : nat -> list T) a b : Permutation a b -> length (flat_map f a) = length (flat_map f b).
Proof. intros P. apply Permutation_length. induction P; cbn; auto; [now apply Permutation_app_head|rewrite !app_assoc; apply Permutation_app_tail, Permutation_app_comm|etransitivity; eauto]. Qed.

(** The loop of the breadth-first search is entered once for each reachable vertex, and the queue
    never holds more of them. *)
Theorem C140_bfs : forall g src L, wf_graph g -> NoDup src -> (forall v, In v src -> v < g_n g) -> reachable_list g src L ->
  forall S (c : component S) s m, c_disc c = None ->
  exists r,
    (forall f, length L <= f -> bfs (with_flag c) g always_false f (s, m) src = Ok r) /\
    (forall f, f < length L -> bfs (with_flag c) g always_false f (s, m) src = NoFuel) /\
    (forall cap f, length L <= cap -> length L <= f -> bounded_bfs (with_flag c) g always_false cap f (s, m) src = Ok r).
Proof.
  intros g src L wf N B [NL IL] S c s m Hc.
  destruct (bfs_q_exists g wf src (rev src)) as (t & D' & H).
  destruct (bfs_q_facts _ _ _ _ _ H) as (A & St & _ & _ & Nd & F).
  assert (length (starts t) = length L /\ length D' = length L) as [E1 E2].
  { assert (Permutation (starts t) L) as P.
    { apply same_elements; [|exact NL|].
      - rewrite St. apply NoDup_app_intro; auto. intros v Hv Hd. apply (F v Hd). now rewrite <- in_rev.
      - intros v. rewrite IL, <- (bfs_q_exact g src t D' v H), A, St, !in_app_iff, <- !in_rev. tauto. }
    split; [now apply Permutation_length|]. rewrite <- (Permutation_length P), A, St, !app_length, !rev_length. lia. }
  exists (run (with_flag c) (source_events src ++ t) (init_all (with_flag c) g (s, m))).
  pose proof (fun cap => bfs_steps (with_flag c) g cap (flag_ok g) wf (flag_bfs_disciplined g c Hc) src t D' (s, m) H N B) as X.
  rewrite E1, E2 in X. split; [|split].
  - intros f Hf. destruct (X (length L) (le_n _) (flag_init g c _)) as [Y _]. now apply Y.
  - intros f Hf. destruct (X (length L) (le_n _) (flag_init g c _)) as [_ Y]. now apply Y.
  - intros cap f Hcap Hf. destruct (X cap Hcap (flag_init g c _)) as [Y _]. now apply Y.
Qed.
Print Assumptions C140_bfs.

Lemma visit_cost g u t D' L : visit g u [] t D' -> reachable_list g [u] L ->
  length (discovers t) = length L /\ cost t = length L + out_degrees g L.
Proof.
  intros H [NL IL]. destruct (proj1 (visit_scan_starts g) _ _ _ _ H) as (A & B).
  assert (Permutation (discovers t) L) as P.
  { apply same_elements; [now apply (proj1 (visit_scan_new g) _ _ _ _ H)|exact NL|].
    intros v. rewrite (white_path g u [] t D' v H), reach_avoid_nil, IL by easy. split.
    - intros R. exists u. split; [now left|exact R].
    - intros (x & [<-|[]] & R). exact R. }
  split; [now apply Permutation_length|]. unfold cost, out_degrees.
  rewrite (Permutation_length B), (Permutation_length P), <- (length_flat_map_perm _ _ _ P).
  now rewrite (Permutation_length (proj1 (visit_scan_examined g) _ _ _ _ H)).
Qed.
(** The loop of the depth-first search is entered once for each reachable vertex and once for each
    edge that leaves one; the stack is always smaller than the number of reachable vertices. *)
Theorem C140_dfs : forall g u L, wf_graph g -> u < g_n g -> reachable_list g [u] L ->
  forall S (c : component S) s m, c_disc c = None ->
  exists r,
    (forall f, length L + out_degrees g L <= f -> dfs_from (with_flag c) g always_false f (s, m) u = Ok r) /\
    (forall f, f < length L + out_degrees g L -> dfs_from (with_flag c) g always_false f (s, m) u = NoFuel) /\
    (forall cap f, length L <= 1 + cap -> length L + out_degrees g L <= f ->
       bounded_dfs (with_flag c) g always_false cap f (s, m) u = Ok r).
Proof.
  intros g u L wf Hu HL S c s m Hc. destruct (visit_exists g wf u [] Hu) as (t & D' & H); [easy|].
  destruct (visit_cost g u t D' L H HL) as [E1 E2]. rewrite <- E2, <- E1.
  exists (run (with_flag c) (ESearchStart u :: t ++ [ESearchFinish (Some u)]) (init_all (with_flag c) g (s, m))).
  destruct (dfs_visit_steps (with_flag c) g (flag_ok g) wf (flag_disciplined g c Hc) u [] t D'
    (init_all (with_flag c) g (s, m)) H Hu) as (_ & X & Y); [easy|apply flag_init|].
  split; [exact X|]. split; [exact Y|]. intros cap f Hcap Hf.
  apply (bounded_dfs_steps (with_flag c) g (flag_ok g) wf (flag_disciplined g c Hc) cap u t D' (s, m) H Hu (flag_init g c _) Hcap f Hf).
Qed.
Print Assumptions C140_dfs.

(** The search of a whole graph. *)
Theorem C140_dfs_all : forall g S (c : component S) s m, wf_graph g -> c_disc c = None ->
  exists r, forall f, g_n g + out_degrees g (vertices g) <= f -> dfs_all (with_flag c) g always_false f (s, m) = Ok r.
Proof.
  intros g S c s m wf Hc. assert (forall r, In r (vertices g) -> r < g_n g) as B by (intros r; apply in_vertices).
  destruct (forest_exists g wf (vertices g) [] B) as (t & D' & F).
  exists (run (with_flag c) t (init_all (with_flag c) g (s, m))).
  destruct (forest_new _ _ _ _ _ F) as (N & _ & _ & P & Q).
  assert (forall v, In v (discovers t) -> v < g_n g) as I.
  { clear -F wf B. revert B. induction F as [D|r rs D t D' Hi F IH|r rs D t1 D1 t2 D' Hn H1 H2 IH]; intros B; [easy| |].
    - apply IH. intros x Hx. apply B. now right.
    - intros v Hv. change (In v (discovers (t1 ++ ESearchFinish (Some r) :: t2))) in Hv.
      rewrite discovers_app in Hv. apply in_app_iff in Hv. destruct Hv as [Hv|Hv].
      + apply (visit_lt g wf r D t1 D1 v H1 Hn); [apply B; now left|exact Hv].
      + apply IH; [intros x Hx; apply B; now right|exact Hv]. }
  assert (Permutation (discovers t) (vertices g)) as PV.
  { apply same_elements; [exact N|apply seq_NoDup|]. intros v. split; [intros Hv; apply in_vertices; now apply I|]. intros Hv.
    apply (forest_roots _ _ _ _ _ _ F), (forest_in _ _ _ _ _ _ F) in Hv. destruct Hv as [Hv|[]]. exact Hv. }
  apply (dfs_roots_steps (with_flag c) g (flag_ok g) wf (flag_disciplined g c Hc) (vertices g) [] t D'); [exact F|exact B|apply flag_init|].
  unfold cost, out_degrees. rewrite (Permutation_length P), (Permutation_length PV), (Permutation_length Q), (length_flat_map_perm _ _ _ PV).
  unfold vertices at 1. rewrite seq_length. lia.
Qed.
Print Assumptions C140_dfs_all.

(** Nested calls of the recursive version: never more than reachable vertices, and at least as many
    as there are vertices on a shortest path to any reachable vertex. *)
Theorem C140_recursion : forall g u L, wf_graph g -> u < g_n g -> reachable_list g [u] L ->
  forall S (c : component S) s m, c_disc c = None ->
  exists r depth, depth <= length L /\ (forall v, reach g u v -> exists n, n < depth /\ walk g u n v) /\
    let start := v_step (with_flag c) (ESearchStart u) (init_all (with_flag c) g (s, m)) in
    (forall f, depth <= f -> recurse (with_flag c) g always_false f u start = Ok (r, false)) /\
    (forall f, f < depth -> recurse (with_flag c) g always_false f u start = NoFuel).
Proof.
  intros g u L wf Hu HL S c s m Hc. destruct (visit_exists g wf u [] Hu) as (t & D' & H); [easy|].
  destruct (visit_cost g u t D' L H HL) as [E1 _]. cbv zeta. set (s0 := v_step _ _ _).
  destruct (proj1 (visit_scan_depth (with_flag c) g (flag_ok g) wf (flag_disciplined g c Hc)) _ _ _ _ H s0 Hu) as (_ & k & K & W & X & Y).
  { apply (d_root _ _ _ (flag_disciplined g c Hc)); [apply flag_init|exact Hu|easy]. }
  exists (run (with_flag c) t s0), k. split; [lia|]. split; [|split; assumption].
  intros v R. apply W. apply (white_path g u [] t D' v H); [easy|]. now apply reach_avoid_nil.
Qed.
Print Assumptions C140_recursion.

(** The vertices 0, 1, ..., n-1 in a row: the recursive version has [n] nested calls. *)
Definition row (n : nat) : graph :=
  {| g_n := n; g_out := fun i => if S i <? n then [{| e_id := i; e_src := i; e_tgt := S i |}] else [] |}.
Lemma row_wf n : wf_graph (row n).
Proof.
  intros u e. cbn [g_out row]. destruct (Nat.ltb_spec (S u) n); [|easy]. intros [<-|[]]. cbn. auto.
Qed.
Lemma row_arc n u v : arc (row n) u v <-> v = S u /\ v < n.
Proof.
  unfold arc. cbn [g_out row]. destruct (Nat.ltb_spec (S u) n).
  - split; [intros (e & [<-|[]] & <-); cbn; auto|]. intros [-> _]. eexists. split; [now left|reflexivity].
  - split; [intros (e & [] & _)|lia].
Qed.
Lemma row_walk n k v : walk (row n) 0 k v -> v = k.
Proof. induction 1 as [|k x w W IH A]; [reflexivity|]. apply row_arc in A. lia. Qed.
Lemma row_reach n v : v < n -> reach (row n) 0 v.
Proof. induction v as [|v IH]; [constructor|]. intros L. eapply reach_step; [apply IH; lia|]. apply row_arc. auto. Qed.
Lemma row_list n : 0 < n -> reachable_list (row n) [0] (seq 0 n).
Proof.
  intros P. split; [apply seq_NoDup|]. intros v. rewrite in_seq. split.
  - intros [_ L]. exists 0. split; [now left|now apply row_reach].
  - intros (s & [<-|[]] & R). apply (reach_lt (row n) 0 v (row_wf n) P) in R. cbn in R. lia.
Qed.
Theorem C140_deep_recursion : forall n S (c : component S) s m, 0 < n -> c_disc c = None ->
  forall f, f < n -> recurse (with_flag c) (row n) always_false f 0
    (v_step (with_flag c) (ESearchStart 0) (init_all (with_flag c) (row n) (s, m))) = NoFuel.
Proof.
  intros n S c s m P Hc f Hf.
  destruct (C140_recursion (row n) 0 (seq 0 n) (row_wf n) P (row_list n P) S c s m Hc) as (r & d & _ & W & _ & Y).
  apply Y. destruct (W (n - 1) (row_reach n (n - 1) ltac:(lia))) as (k & Hk & Wk). apply row_walk in Wk. lia.
Qed.
Print Assumptions C140_deep_recursion.

(** With a terminator the same numbers of steps and of elements in the queue or on the stack are enough, and what
    the user's queue or stack holds has no effect on the result. *)
Theorem C140_bfs_terminator : forall g src L term, wf_graph g -> NoDup src -> (forall v, In v src -> v < g_n g) -> reachable_list g src L ->
  forall S (c : component S) s m, c_disc c = None ->
  exists r,
    (forall f, length L <= f -> bfs (with_flag c) g term f (s, m) src = Ok r) /\
    (forall cap f, length L <= cap -> length L <= f -> bounded_bfs (with_flag c) g term cap f (s, m) src = Ok r).
Proof.
  intros g src L term wf N B HL S c s m Hc. destruct (C140_bfs g src L wf N B HL S c s m Hc) as (r0 & _ & _ & R0).
  destruct (bfs_with_term _ _ term _ _ _ _ _ (R0 (length L) (length L) (le_n _) (le_n _))) as [r R]. exists r. split.
  - intros f Hf. apply R. exact Hf.
  - intros cap f Hc' Hf. destruct (bfs_with_term _ _ term _ _ _ _ _ (R0 cap (length L) Hc' (le_n _))) as [r' R'].
    destruct (R' f Hf) as [-> E]. destruct (R f Hf) as [_ E']. congruence.
Qed.
Print Assumptions C140_bfs_terminator.
Theorem C140_dfs_terminator : forall g u L term, wf_graph g -> u < g_n g -> reachable_list g [u] L ->
  forall S (c : component S) s m, c_disc c = None ->
  exists r,
    (forall f, length L + out_degrees g L <= f -> dfs_from (with_flag c) g term f (s, m) u = Ok r) /\
    (forall cap f, length L <= 1 + cap -> length L + out_degrees g L <= f ->
       bounded_dfs (with_flag c) g term cap f (s, m) u = Ok r).
Proof.
  intros g u L term wf Hu HL S c s m Hc. destruct (C140_dfs g u L wf Hu HL S c s m Hc) as (r0 & _ & _ & R0).
  destruct (dfs_with_term _ _ term _ _ _ _ _ (R0 (length L) _ ltac:(lia) (le_n _))) as [r R]. exists r. split.
  - intros f Hf. apply R. exact Hf.
  - intros cap f Hc' Hf. destruct (dfs_with_term _ _ term _ _ _ _ _ (R0 cap _ Hc' (le_n _))) as [r' R'].
    destruct (R' f Hf) as [-> E]. destruct (R f Hf) as [_ E']. congruence.
Qed.
Print Assumptions C140_dfs_terminator.

(** Concrete cases. *)
Definition g140 := directed 6 [(0, 1); (0, 2); (1, 3); (2, 3); (3, 0); (3, 3); (4, 0); (3, 5)].
Lemma g140_reach : reachable_list g140 [0] [0; 1; 2; 3; 5].
Proof.
  assert (forall u v, In v (map e_tgt (g_out g140 u)) -> arc g140 u v) as A.
  { intros u v (e & <- & I)%in_map_iff. now exists e. }
  assert (reach g140 0 1) as R1 by (eapply reach_step; [constructor|apply A; now left]).
  assert (reach g140 0 2) as R2 by (eapply reach_step; [constructor|apply A; right; now left]).
  assert (reach g140 0 3) as R3 by (eapply reach_step; [exact R1|apply A; now left]).
  assert (reach g140 0 5) as R5 by (eapply reach_step; [exact R3|apply A; cbn; tauto]).
  split; [repeat constructor; cbn; intuition congruence|]. intros v. split.
  - intros [<-|[<-|[<-|[<-|[<-|[]]]]]]; (exists 0; split; [now left|]); assumption || constructor.
  - intros (s & [<-|[]] & R). induction R as [|v w R IH (e & He & <-)]; [now left|].
    destruct IH as [<-|[<-|[<-|[<-|[<-|[]]]]]]; cbn in He; intuition (subst; cbn; tauto).
Qed.
Example C140_case_bfs : wf_graph g140 /\ NoDup [0] /\ reachable_list g140 [0] [0; 1; 2; 3; 5] /\
  omap fst (bfs (with_flag start_printer) g140 always_false 5 ([], fun _ => true) [0]) = Ok [0; 1; 2; 3; 5] /\
  bfs (with_flag start_printer) g140 always_false 4 ([], fun _ => true) [0] = NoFuel /\
  omap fst (bounded_bfs (with_flag start_printer) g140 always_false 5 5 ([], fun _ => true) [0]) = Ok [0; 1; 2; 3; 5].
Proof.
  split; [now apply directed_wf|]. split; [repeat constructor; easy|]. split; [exact g140_reach|]. repeat split; reflexivity.
Qed.
Example C140_case_dfs : out_degrees g140 [0; 1; 2; 3; 5] = 7 /\
  omap fst (dfs_from (with_flag start_printer) g140 always_false 12 ([], fun _ => true) 0) = Ok [0; 1; 3; 5; 2] /\
  dfs_from (with_flag start_printer) g140 always_false 11 ([], fun _ => true) 0 = NoFuel /\
  omap fst (bounded_dfs (with_flag start_printer) g140 always_false 4 12 ([], fun _ => true) 0) = Ok [0; 1; 3; 5; 2].
Proof. repeat split; reflexivity. Qed.
Example C140_case_all : out_degrees g140 (vertices g140) = 8 /\
  omap fst (dfs_all (with_flag start_printer) g140 always_false 14 ([], fun _ => true)) = Ok [0; 1; 3; 5; 2; 4].
Proof. split; reflexivity. Qed.
(** The bounds are reached: all vertices are sources; the vertices form a row. *)
Example C140_case_bounds :
  bounded_bfs (with_flag start_printer) g140 always_false 5 9 ([], fun _ => true) [0; 1; 2; 3; 4; 5] = AssertFail /\
  omap fst (bounded_bfs (with_flag start_printer) g140 always_false 6 9 ([], fun _ => true) [0; 1; 2; 3; 4; 5]) = Ok [0; 1; 2; 3; 4; 5] /\
  bounded_dfs (with_flag start_printer) (row 7) always_false 5 99 ([], fun _ => true) 0 = AssertFail /\
  omap fst (bounded_dfs (with_flag start_printer) (row 7) always_false 6 99 ([], fun _ => true) 0) = Ok [0; 1; 2; 3; 4; 5; 6].
Proof. repeat split; reflexivity. Qed.
Example C140_case_recursion : 0 < 7 /\
  recurse (with_flag start_printer) (row 7) always_false 6 0 ([], fun _ => false) = NoFuel /\
  omap (fun r => fst (fst r)) (recurse (with_flag start_printer) (row 7) always_false 7 0 ([], fun _ => false)) = Ok [0; 1; 2; 3; 4; 5; 6].
Proof. repeat split; try reflexivity. lia. Qed.

(** A source that is given twice is started twice: two sources that are the same vertex cost more
    steps than there are reachable vertices, and overfill a queue of that size. *)
Theorem C140_sources_refuted : ~ (forall g src L, wf_graph g -> (forall v, In v src -> v < g_n g) -> reachable_list g src L ->
  (exists r, bfs (with_flag start_printer) g always_false (length L) ([], fun _ => false) src = Ok r)).
Proof.
  intros H. destruct (H (row 1) [0; 0] [0] (row_wf 1)) as (r & E).
  - intros v [<-|[<-|[]]]; cbn; lia.
  - split; [repeat constructor; easy|]. intros v. split.
    + intros [<-|[]]. exists 0. split; [now left|constructor].
    + intros (s & [<-|[<-|[]]] & R); apply (reach_lt (row 1) 0 v (row_wf 1) ltac:(cbn; lia)) in R; cbn in R; left; lia.
  - discriminate E.
Qed.
Print Assumptions C140_sources_refuted.
Example C140_case_sources :
  omap fst (bfs (with_flag start_printer) (row 2) always_false 9 ([], fun _ => false) [0; 0]) = Ok [0; 0; 1] /\
  bounded_bfs (with_flag start_printer) (row 1) always_false 1 9 ([], fun _ => false) [0; 0] = AssertFail.
Proof. split; reflexivity. Qed.
(** The search for 3 ends when it is discovered, with a smaller queue and stack than the whole search needs. *)
Example C140_case_terminator :
  omap fst (bounded_bfs (with_flag start_printer) g140 (Nat.eqb 3) 5 5 ([], fun _ => true) [0]) = omap fst (bfs (with_flag start_printer) g140 (Nat.eqb 3) 5 ([], fun _ => true) [0]) /\
  omap fst (bfs (with_flag start_printer) g140 (Nat.eqb 3) 2 ([], fun _ => true) [0]) = Ok [0; 1] /\
  omap fst (bfs (with_flag start_printer) g140 (Nat.eqb 0) 0 ([], fun _ => true) [0]) = Ok [] /\
  omap fst (bounded_dfs (with_flag start_printer) g140 (Nat.eqb 3) 4 12 ([], fun _ => true) 0) = Ok [0; 1; 3].
Proof. repeat split; reflexivity. Qed.
