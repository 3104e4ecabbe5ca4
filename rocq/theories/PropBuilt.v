(** Searches of graphs built by adding edges: property C125. *)
From Coq Require Import ZArith List Bool PeanoNat Lia Permutation.
From Verif Require Import Outcome AdjModel AdjProofs.
From Verif Require Import GraphModel DfsProofs DfsResults BfsProofs GraphExamples TarjanProofs BridgeProofs ArticProofs.
From Verif Require Import PropGraph PropConnect BuiltModel RelabelProofs.
Import ListNotations.

(** ** Specification *)

(** A request was made to join [u] to [v]. *)
Definition linked (und : bool) (h : list (nat * nat * nat)) (u v : nat) : Prop :=
  exists p, In (u, v, p) h \/ und = true /\ In (v, u, p) h.

(** [path E u n v]: a path of [n] steps *)
Inductive path (E : nat -> nat -> Prop) (u : nat) : nat -> nat -> Prop :=
| path_nil : path E u 0 u
| path_step n v w : path E u n v -> E v w -> path E u (S n) w.
Definition connected (E : nat -> nat -> Prop) (u v : nat) : Prop := exists n, path E u n v.

(** Joined by an accepted request other than the [i]-th *)
Definition linked_without (und : bool) (A : list (nat * nat * nat)) (i u v : nat) : Prop :=
  exists j p, j <> i /\ (nth_error A j = Some (u, v, p) \/ und = true /\ nth_error A j = Some (v, u, p)).

(** The accepted requests that touch a vertex, in order; the request an edge stands for: edges that are
    kept in a container carry its index, others their position at the source. *)
Definition at_vertex (A : list (nat * nat * nat)) (u : nat) : list nat :=
  filter (fun i => match nth_error A i with Some (a, b, _) => (a =? u) || (b =? u) | None => false end)
    (seq 0 (length A)).
Definition stands (c : config) (A : list (nat * nat * nat)) (e : GraphModel.edge) (i : nat) : Prop :=
  match c_sel c with
  | SelNone => nth_error (at_vertex A (e_src e)) (e_id e) = Some i
  | _ => e_id e = i
  end.

(** ** The graph seen by a search *)

Lemma in_imap {X Y} (f : nat -> X -> Y) y : forall l k,
  In y (imap f k l) <-> exists i x, nth_error l i = Some x /\ y = f (k + i) x.
Proof.
  induction l as [|x l IH]; intro k.
  - cbn. split; [tauto|]. intros (i & x & H & _). now destruct i.
  - cbn [imap In]. rewrite IH. split.
    + intros [<-|(i & z & H & ->)]; [exists 0, x; now rewrite Nat.add_0_r|].
      exists (S i), z. split; [exact H|]. f_equal. lia.
    + intros ([|i] & z & H & ->); [left; injection H as ->; now rewrite Nat.add_0_r|].
      right. exists i, z. split; [exact H|]. f_equal. lia.
Qed.

Section View.
  Context (c : config).
  Notation und := (is_undirected c).
  Notation conv := (fun e => {| GraphModel.e_id := AdjModel.e_bundle e; GraphModel.e_src := AdjModel.e_source e;
                                GraphModel.e_tgt := AdjModel.e_target e |}).

  Lemma it_out_iff R : forall u t p i, In (t, p, i) (it_out c R u) <->
    exists a b, nth_error (rev R) i = Some (a, b, p) /\
      (a = u /\ b = t \/ und = true /\ a <> u /\ b = u /\ a = t).
  Proof.
    induction R as [|[[a b] q] R IH]; intros u t p i.
    - cbn. split; [tauto|]. intros (a & b & H & _). now destruct i.
    - cbn [it_out rev]. rewrite in_app_iff, IH. split.
      + intros [(a' & b' & H & C)|H].
        * exists a', b'. split; [|exact C]. rewrite nth_error_app1; [exact H|]. apply nth_error_Some. congruence.
        * exists a, b. destruct (Nat.eqb_spec a u) as [->|D].
          -- destruct H as [H|[]]. injection H as -> -> <-.
             rewrite nth_error_app2, rev_length, Nat.sub_diag by (rewrite rev_length; lia). cbn. auto.
          -- destruct und; cbn [andb] in H; [|destruct H]. destruct (Nat.eqb_spec b u) as [->|]; [|destruct H].
             destruct H as [H|[]]. injection H as -> -> <-.
             rewrite nth_error_app2, rev_length, Nat.sub_diag by (rewrite rev_length; lia). cbn.
             split; [reflexivity|]. right. auto.
      + intros (a' & b' & H & C). destruct (Nat.lt_ge_cases i (length (rev R))) as [L|L].
        * rewrite nth_error_app1 in H by exact L. left. eauto.
        * rewrite nth_error_app2 in H by exact L. rewrite rev_length in *.
          destruct (i - length R) as [|k] eqn:K; [|destruct k; discriminate]. cbn in H. injection H as -> -> ->.
          right. replace i with (length R) by lia. destruct (Nat.eqb_spec a' u) as [->|D].
          -- destruct C as [[_ ->]|(_ & X & _)]; [now left|congruence].
          -- destruct C as [[X _]|(U & _ & -> & ->)]; [congruence|]. rewrite U, Nat.eqb_refl. now left.
  Qed.

  Lemma it_out_idx_lt R u x : In x (it_out c R u) -> it_idx x < length R.
  Proof.
    destruct x as [[t p] i]. intro H. apply it_out_iff in H as (a & b & H & _).
    rewrite <- rev_length. apply nth_error_Some. cbn. congruence.
  Qed.

  Lemma it_out_nodup R u : NoDup (map it_idx (it_out c R u)).
  Proof.
    induction R as [|[[a b] q] R IH]; [constructor|]. cbn [it_out].
    assert (G : forall t, NoDup (map it_idx (it_out c R u ++ [(t, q, length R)]))).
    { intro t. rewrite map_app. cbn [map it_idx snd].
      apply Permutation_NoDup with (length R :: map it_idx (it_out c R u)).
      - apply Permutation_cons_append.
      - constructor; [|exact IH]. intro X. apply in_map_iff in X as (y & E & Y).
        apply it_out_idx_lt in Y. lia. }
    destruct (a =? u); [apply G|]. destruct (und && (b =? u)); [apply G|]. now rewrite app_nil_r.
  Qed.

  Section Stored.
    Context (n : nat) (R : list request) (B : bounded n R).
    Notation g := (stored c n R).

    Lemma view_n : g_n (view c g) = n.
    Proof. apply vertex_count_mk. Qed.

    Lemma view_out u : u < n -> g_out (view c g) u = map conv (oe c R u).
    Proof. intro L. unfold view. cbn [g_out]. now rewrite out_edges_stored. Qed.

    Lemma view_none u : n <= u -> g_out (view c g) u = [].
    Proof.
      intro L. unfold view. cbn [g_out]. unfold out_edges, outs, at_id.
      unfold stored, mk at 1. cbn [g_vertices].
      destruct (nth_error _ u) eqn:E; [|reflexivity].
      exfalso. assert (u < n); [|lia].
      assert (X : u < length (map (fun u0 => {| vd_outs := ent_out c R u0; vd_ins := ent_in c R u0 |}) (seq 0 n)))
        by (apply nth_error_Some; congruence).
      rewrite map_length, seq_length in X. exact X.
    Qed.

    Lemma view_in u e : In e (g_out (view c g) u) ->
      u < n /\ e_src e = u /\ e_tgt e < n /\
      exists i p a b, nth_error (rev R) i = Some (a, b, p) /\
        (a = u /\ b = e_tgt e \/ und = true /\ a <> u /\ b = u /\ a = e_tgt e) /\
        (sel_none c = false -> e_id e = i).
    Proof.
      intro H. destruct (Nat.lt_ge_cases u n) as [L|L]; [|rewrite view_none in H by exact L; destruct H].
      rewrite view_out in H by exact L. apply in_map_iff in H as (e0 & <- & H). cbn [e_src e_tgt e_id].
      unfold oe in H. apply in_imap in H as (k & [[t p] i] & Hk & ->). apply nth_error_In in Hk.
      cbn [oe_of AdjModel.e_source AdjModel.e_target AdjModel.e_bundle it_tgt fst snd].
      apply it_out_iff in Hk as (a & b & N & C).
      assert (BB : a < n /\ b < n).
      { unfold bounded in B. rewrite Forall_forall in B. apply (B (a, b, p)).
        apply in_rev. eapply nth_error_In; eauto. }
      split; [exact L|]. split; [reflexivity|]. split; [intuition congruence|].
      exists i, p, a, b. split; [exact N|]. split; [exact C|]. now intros ->.
    Qed.

    Lemma view_has i a b p : nth_error (rev R) i = Some (a, b, p) ->
      (exists e, In e (g_out (view c g) a) /\ e_tgt e = b /\ (sel_none c = false -> e_id e = i)) /\
      (und = true -> exists e, In e (g_out (view c g) b) /\ e_tgt e = a /\ (sel_none c = false -> e_id e = i)).
    Proof.
      intro N.
      assert (BB : a < n /\ b < n).
      { unfold bounded in B. rewrite Forall_forall in B. apply (B (a, b, p)).
        apply in_rev. eapply nth_error_In; eauto. }
      assert (G : forall u t, u < n -> In (t, p, i) (it_out c R u) ->
        exists e, In e (g_out (view c g) u) /\ e_tgt e = t /\ (sel_none c = false -> e_id e = i)).
      { intros u t L H. rewrite view_out by exact L. apply In_nth_error in H as [k H].
        exists (conv (oe_of c u k (t, p, i))). split; [|split; [reflexivity|]].
        - apply in_map_iff. exists (oe_of c u k (t, p, i)). split; [reflexivity|]. apply in_imap. eauto.
        - intro S. cbn. now rewrite S. }
      split.
      - apply G; [tauto|]. apply it_out_iff. exists a, b. auto.
      - intro U. apply G; [tauto|]. apply it_out_iff. exists a, b. split; [exact N|].
        destruct (Nat.eq_dec a b) as [->|D]; [now left|]. right. auto.
    Qed.

    Lemma view_wf : wf_graph (view c g).
    Proof. intros u e H. apply view_in in H as (_ & E & L & _). rewrite view_n. auto. Qed.

    Lemma view_arc u v : arc (view c g) u v <-> linked und (rev R) u v.
    Proof.
      split.
      - intros (e & H & <-). apply view_in in H as (_ & _ & _ & i & p & a & b & N & C & _).
        apply nth_error_In in N. exists p. destruct C as [[-> ->]|(U & _ & -> & ->)]; auto.
      - intros (p & [H|[U H]]); apply In_nth_error in H as [i H]; apply view_has in H as [H1 H2].
        + destruct H1 as (e & H & E & _). now exists e.
        + destruct (H2 U) as (e & H & E & _). now exists e.
    Qed.

    Lemma view_multigraph : und = true -> sel_none c = false -> multigraph (view c g).
    Proof.
      intros U S. split.
      - exact view_wf.
      - intros u e H. pose proof (view_in u e H) as (L & E & Lt & i & p & a & b & N & C & I).
        specialize (I S). unfold rev_edge. rewrite E, I.
        rewrite view_out by exact Lt. apply in_map_iff.
        assert (X : In (u, p, i) (it_out c R (e_tgt e))).
        { apply it_out_iff. exists a, b. split; [exact N|].
          destruct C as [[-> ->]|(_ & D & -> & ->)]; [|now left].
          destruct (Nat.eq_dec u (e_tgt e)); [left; auto|right; auto]. }
        apply In_nth_error in X as [k X]. exists (oe_of c (e_tgt e) k (u, p, i)). split.
        + unfold oe_of, it_tgt, it_idx. cbn [AdjModel.e_source AdjModel.e_target AdjModel.e_bundle fst snd].
          now rewrite S.
        + apply in_imap. eauto.
      - intros u u' e e' H H' EI.
        apply view_in in H as (_ & E & _ & i & p & a & b & N & C & I).
        apply view_in in H' as (_ & E' & _ & i' & p' & a' & b' & N' & C' & I').
        specialize (I S). specialize (I' S). assert (N2 : Some (a, b, p) = Some (a', b', p')) by congruence.
        injection N2 as <- <- <-.
        destruct e as [j s t], e' as [j' s' t']. unfold rev_edge. cbn [e_src e_tgt e_id] in *. subst.
        destruct C as [[-> ->]|(_ & D & -> & ->)], C' as [[<- <-]|(_ & D' & <- & <-)]; auto.
      - intro u. destruct (Nat.lt_ge_cases u n) as [L|L]; [|rewrite view_none by exact L; constructor].
        rewrite view_out by exact L. rewrite map_map. cbn [e_id].
        replace (map (fun x => AdjModel.e_bundle x) (oe c R u)) with (map it_idx (it_out c R u)).
        + apply it_out_nodup.
        + unfold oe. generalize 0. induction (it_out c R u) as [|x l IH]; intro k; [reflexivity|].
          cbn [imap map]. f_equal; [unfold oe_of; cbn; now rewrite S | apply IH].
    Qed.

    Lemma view_no_parallel : sel_none c = false ->
      (forall i j x y, i < j -> nth_error (rev R) i = Some x -> nth_error (rev R) j = Some y ->
         joins und (rq_src y) (rq_tgt y) x = false) ->
      no_parallel (view c g).
    Proof.
      intros S P u e e' H H' ET.
      pose proof (view_in u e H) as (_ & E & _ & i & p & a & b & N & C & I).
      pose proof (view_in u e' H') as (_ & E' & _ & i' & p' & a' & b' & N' & C' & I').
      assert (X : i = i').
      { assert (J : forall i i' a b p a' b' p', nth_error (rev R) i = Some (a, b, p) ->
          nth_error (rev R) i' = Some (a', b', p') ->
          (a = u /\ b = e_tgt e \/ und = true /\ a <> u /\ b = u /\ a = e_tgt e) ->
          (a' = u /\ b' = e_tgt e \/ und = true /\ a' <> u /\ b' = u /\ a' = e_tgt e) -> ~ i < i').
        { clear - P. intros i i' a b p a' b' p' N N' C C' L. specialize (P i i' _ _ L N N').
          unfold joins, rq_src, rq_tgt in P. cbn [fst snd] in P.
          destruct C as [[-> ->]|(U & D & -> & ->)], C' as [[-> ->]|(U' & D' & -> & ->)];
            try rewrite U in P; try rewrite U' in P;
            rewrite ?Nat.eqb_refl, ?andb_true_r, ?orb_true_r in P; cbn in P; discriminate. }
        rewrite <- ET in C'. pose proof (J i i' _ _ _ _ _ _ N N' C C'). pose proof (J i' i _ _ _ _ _ _ N' N C' C). lia. }
      specialize (I S). specialize (I' S). destruct e as [j s t], e' as [j' s' t'].
      cbn [GraphModel.e_src GraphModel.e_tgt GraphModel.e_id] in *. subst. reflexivity.
    Qed.
  End Stored.
End View.

(** ** Requests and accepted requests *)

Lemma joins_linked und u v x l : In x l -> joins und u v x = true -> linked und l u v.
Proof.
  destruct x as [[a b] p]. intros H J. exists p. unfold joins, rq_src, rq_tgt in J. cbn [fst snd] in J.
  rewrite orb_true_iff, !andb_true_iff, !Nat.eqb_eq in J. intuition (subst; auto).
Qed.

Lemma accept_linked unique und h u v : linked und (accept unique und [] h) u v <-> linked und h u v.
Proof.
  induction h as [|x h IH] using rev_ind; [reflexivity|]. rewrite accept_app. cbv zeta.
  set (A := accept unique und [] h) in *.
  assert (M : forall l, linked und (l ++ [x]) u v <-> linked und l u v \/ linked und [x] u v).
  { intro l. unfold linked. split.
    - intros (p & [H|[U H]]); apply in_app_iff in H as [H|H]; eauto.
    - intros [(p & [H|[U H]])|(p & [H|[U H]])]; exists p; rewrite !in_app_iff; auto. }
  rewrite M, <- IH. destruct (unique && existsb (joins und (rq_src x) (rq_tgt x)) A) eqn:D.
  - split; [now left|]. intros [H|H]; [exact H|].
    apply andb_prop in D as [_ D]. apply existsb_exists in D as (y & Y & J).
    destruct x as [[a b] p]. unfold rq_src, rq_tgt in J. cbn [fst snd] in J.
    destruct (joins_linked und a b y A Y J) as (q & Q).
    destruct H as (p' & [[H|[]]|[U [H|[]]]]); injection H as -> -> ->; exists q; tauto.
  - rewrite M. reflexivity.
Qed.

Lemma path_walk (g : graph) E u v n : (forall a b, arc g a b <-> E a b) -> walk g u n v <-> path E u n v.
Proof.
  intro H. split; induction 1; try constructor; econstructor; eauto; now apply H.
Qed.

Lemma reach_connected (g : graph) E u v : (forall a b, arc g a b <-> E a b) -> reach g u v <-> connected E u v.
Proof.
  intro H. split.
  - induction 1 as [|v w R IH A]; [exists 0; constructor|]. destruct IH as [n IH].
    exists (S n). econstructor; [exact IH|now apply H].
  - intros [n P]. induction P as [|n v w P IH A]; [constructor|]. eapply reach_step; [exact IH|now apply H].
Qed.

Section Built.
  Context (c : config) (n0 : nat) (h : list (nat * nat * nat)) (e0 : nat -> nat).
  Context (g : AdjModel.graph) (rs : list (AdjModel.edge * bool)).
  Context (Run : AdjModel.run c (empty_graph n0) h e0 = Ok (g, rs)).
  Notation und := (is_undirected c).
  Notation A := (accept (c_unique c) und [] h).

  Lemma built_stored : exists R, g = stored c (needed n0 h) R /\ bounded (needed n0 h) R /\ rev R = A.
  Proof.
    destruct (history c n0 h e0) as (R & rs' & H1 & H2 & H3 & _). rewrite H1 in Run. injection Run as <- _. eauto.
  Qed.

  Lemma built_wf : wf_graph (view c g).
  Proof. destruct built_stored as (R & -> & B & _). now apply view_wf. Qed.

  Lemma built_arc u v : arc (view c g) u v <-> linked und h u v.
  Proof.
    destruct built_stored as (R & -> & B & E). rewrite view_arc, E by exact B. apply accept_linked.
  Qed.

  Lemma built_symmetric : und = true -> symmetric (view c g).
  Proof.
    intros U u v. rewrite !built_arc. intros (p & [H|[_ H]]); exists p; auto.
  Qed.

  Lemma built_without i u v : sel_none c = false ->
    arc (without (view c g) i) u v <-> linked_without und A i u v.
  Proof.
    intro S. destruct built_stored as (R & -> & B & E). rewrite <- E. split.
    - intros (e & H & <-). apply without_in in H as [H NI].
      apply view_in in H as (_ & _ & _ & j & p & a & b & N & C & I); [|exact B]. specialize (I S).
      exists j, p. split; [congruence|]. destruct C as [[-> ->]|(U & _ & -> & ->)]; auto.
    - intros (j & p & D & [N|[U N]]); apply (view_has c _ R B) in N as [N1 N2].
      + destruct N1 as (e & H & ET & I). exists e. split; [|exact ET]. apply without_in. split; [exact H|].
        rewrite (I S). exact D.
      + destruct (N2 U) as (e & H & ET & I). exists e. split; [|exact ET]. apply without_in. split; [exact H|].
        rewrite (I S). exact D.
  Qed.

  Lemma built_multigraph : und = true -> sel_none c = false -> multigraph (view c g).
  Proof. intros U S. destruct built_stored as (R & -> & B & E). now apply view_multigraph. Qed.

  Lemma built_no_parallel : sel_none c = false -> c_unique c = true -> no_parallel (view c g).
  Proof.
    intros S Q. destruct built_stored as (R & -> & B & E). apply view_no_parallel; auto.
    rewrite E, Q. apply accept_unique. intros i j x y _ H. now destruct i.
  Qed.
End Built.

(** ** Theorems *)

(** Breadth-first search from any set of vertices finds the least number of requested edges. *)
Theorem C125_distance c n0 h e0 g rs src m :
  AdjModel.run c (empty_graph n0) h e0 = Ok (g, rs) ->
  NoDup src -> (forall v, In v src -> v < vertex_count g) ->
  exists k m', (forall f, k <= f -> bfs distance_visitor (view c g) always_false f m src = Ok m') /\
    (forall v n, v < vertex_count g -> m' v = Z.of_nat n <->
       (exists s, In s src /\ path (linked (is_undirected c) h) s n v) /\
       (forall s j, In s src -> path (linked (is_undirected c) h) s j v -> n <= j)) /\
    (forall v, v < vertex_count g ->
       ~ (exists s, In s src /\ connected (linked (is_undirected c) h) s v) -> m' v = (-1)%Z).
Proof.
  intros Run N L. pose proof (built_arc c n0 h e0 g rs Run) as AR.
  destruct (C38_bfs_distance (view c g) src m (built_wf c n0 h e0 g rs Run) N L) as (k & m' & E & D & U).
  exists k, m'. split; [exact E|]. split.
  - intros v n Lv. rewrite (D v n Lv). unfold distance_is. split; intros [(s & S & P) M].
    + split; [exists s; split; [exact S|now apply (path_walk _ _ _ _ _ AR)]|].
      intros s' j S' P'. apply (M s' j S'). now apply (path_walk _ _ _ _ _ AR).
    + split; [exists s; split; [exact S|now apply (path_walk _ _ _ _ _ AR)]|].
      intros s' j S' P'. apply (M s' j S'). now apply (path_walk _ _ _ _ _ AR).
  - intros v Lv X. apply U; [exact Lv|]. intros (s & S & R). apply X. exists s. split; [exact S|].
    now apply (reach_connected _ _ _ _ AR).
Qed.

(** Depth-first search starts exactly the vertices that can be reached, each once. *)
Theorem C125_depth_first c n0 h e0 g rs u :
  AdjModel.run c (empty_graph n0) h e0 = Ok (g, rs) -> u < vertex_count g ->
  exists t, (forall v, In v (starts t) <-> connected (linked (is_undirected c) h) u v) /\
    NoDup (starts t) /\
    forall S (k : component S) s m, c_disc k = None -> exists m' f0, forall f, f0 <= f ->
      dfs_from (with_flag k) (view c g) always_false f (s, m) u =
      Ok (crun k (init_events (view c g) ++ ESearchStart u :: t ++ [ESearchFinish (Some u)]) s, m').
Proof.
  intros Run L. destruct (C41_dfs_reachable (view c g) u (built_wf c n0 h e0 g rs Run) L)
    as (t & R & N & _ & _ & _ & E).
  exists t. split; [|split; [exact N|exact E]]. intro v. rewrite R.
  apply reach_connected. apply (built_arc c n0 h e0 g rs Run).
Qed.

(** The order of a graph whose requests make no cycle lists the target of each before its source. *)
Theorem C125_topological_sort c n0 h e0 g rs m :
  AdjModel.run c (empty_graph n0) h e0 = Ok (g, rs) -> is_undirected c = false ->
  (forall u v p, In (u, v, p) h -> ~ connected (linked false h) v u) ->
  exists k order, (forall f, k <= f -> topological_sort f (view c g) m = Ok order) /\
    Permutation order (seq 0 (vertex_count g)) /\
    forall u v p, In (u, v, p) h -> exists a b d, order = a ++ v :: b ++ u :: d.
Proof.
  intros Run U AC. pose proof (built_arc c n0 h e0 g rs Run) as AR. rewrite U in AR.
  destruct (C42_topological_sort (view c g) m (built_wf c n0 h e0 g rs Run)) as (k & order & E & P & T).
  exists k, order. split; [exact E|]. split; [exact P|].
  intros u v p H. assert (AUV : arc (view c g) u v) by (apply AR; exists p; now left).
  assert (IU : In u order).
  { apply (Permutation_in _ (Permutation_sym P)). apply in_seq.
    destruct AUV as (e & He & _). split; [lia|]. cbn.
    destruct (built_stored c n0 h e0 g rs Run) as (R & -> & B & _).
    apply view_in in He as (L & _); [|exact B]. rewrite <- (view_n c (needed n0 h) R) in L. exact L. }
  apply in_split in IU as (a & d & EO).
  assert (IV : In v a).
  { apply (T ltac:(intros x y A; rewrite (reach_connected _ _ _ _ AR); apply AR in A as (q & [A|[A _]]);
      [now apply (AC x y q)|discriminate]) a u d EO v AUV). }
  apply in_split in IV as (a1 & a2 & ->). exists a1, a2, d. rewrite EO, <- app_assoc. reflexivity.
Qed.

(** Labels of connected components *)
Theorem C125_connected_components c n0 h e0 g rs m :
  AdjModel.run c (empty_graph n0) h e0 = Ok (g, rs) -> is_undirected c = true ->
  exists k m' n, (forall f, k <= f -> dfs_all cc_visitor (view c g) always_false f (m, 0%Z) = Ok (m', n)) /\
    (forall v w, v < vertex_count g -> w < vertex_count g ->
       m' v = m' w <-> connected (linked true h) v w) /\
    (forall v, v < vertex_count g -> (0 <= m' v < n)%Z) /\
    (forall l, (0 <= l < n)%Z -> exists v, v < vertex_count g /\ m' v = l).
Proof.
  intros Run U. pose proof (built_arc c n0 h e0 g rs Run) as AR. rewrite U in AR.
  destruct (C43_connected_components (view c g) m (built_wf c n0 h e0 g rs Run)
    (built_symmetric c n0 h e0 g rs Run U)) as (k & m' & n & E & L & B & O).
  exists k, m', n. split; [exact E|]. split; [|split; [exact B|exact O]].
  intros v w Lv Lw. rewrite (L v w Lv Lw). now apply reach_connected.
Qed.

Lemma bridges_kept c n0 h e0 g rs parallel cm :
  AdjModel.run c (empty_graph n0) h e0 = Ok (g, rs) -> c_dir c = Undirected -> c_sel c <> SelNone ->
  (parallel = false -> c_unique c = true) ->
  let A := accept (c_unique c) true [] h in
  exists k s, (forall f, k <= f -> find_bridges parallel f (view c g) cm = Ok s) /\
    NoDup (map e_id (br_out s)) /\
    (forall e, In e (br_out s) -> exists p,
       nth_error A (e_id e) = Some (e_src e, e_tgt e, p) \/ nth_error A (e_id e) = Some (e_tgt e, e_src e, p)) /\
    (forall i u v p, nth_error A i = Some (u, v, p) ->
       In i (map e_id (br_out s)) <-> ~ connected (linked_without true A i) u v) /\
    (forall v w, v < vertex_count g -> w < vertex_count g ->
       cs_map (br_c s) v = cs_map (br_c s) w <-> forall i, connected (linked_without true A i) v w).
Proof.
  intros Run U SN PF. assert (UU : is_undirected c = true) by (unfold is_undirected; now rewrite U).
  assert (S : sel_none c = false) by (unfold sel_none; destruct (c_sel c); congruence).
  pose proof (built_multigraph c n0 h e0 g rs Run UU S) as MG.
  destruct (bridges_refine (view c g) parallel cm MG
    (fun P => built_no_parallel c n0 h e0 g rs Run S (PF P))) as (k & s & E & _ & I & N & X & _ & F).
  cbv zeta. rewrite <- UU. exists k, s. split; [exact E|]. split; [exact N|]. split; [|split].
  - intros e He. apply I in He. destruct (built_stored c n0 h e0 g rs Run) as (R & -> & B & EA).
    apply view_in in He as (_ & _ & _ & i & p & a & b & NT & C & ID); [|exact B].
    exists p. rewrite (ID S), <- EA. destruct C as [[-> ->]|(_ & _ & -> & ->)]; auto.
  - intros i u v p H. pose proof H as H'.
    destruct (built_stored c n0 h e0 g rs Run) as (R & EG & B & EA). rewrite <- EA in H'.
    apply (view_has c _ R B) in H' as [(e & He & ET & ID) _]. rewrite <- EG in He.
    pose proof (mg_wf _ MG u e He) as [ES _].
    assert (Lu : u < g_n (view c g)).
    { rewrite EG in He. apply view_in in He as (L & _); [|exact B]. rewrite EG, view_n. exact L. }
    rewrite <- (ID S). rewrite (X u e Lu He). unfold is_bridge, joined. rewrite ES, ET.
    rewrite (reach_connected _ (linked_without (is_undirected c) (accept (c_unique c) (is_undirected c) [] h) (e_id e))).
    + reflexivity.
    + intros a b. apply (built_without c n0 h e0 g rs Run); exact S.
  - intros v w Lv Lw. rewrite (F v w Lv Lw). unfold two_edge_connected. split; intros H i; specialize (H i).
    + eapply (reach_connected (without (view c g) i)); [|exact H]. intros a b. now apply (built_without c n0 h e0 g rs Run).
    + eapply (reach_connected (without (view c g) i)); [|exact H]. intros a b. now apply (built_without c n0 h e0 g rs Run).
Qed.

Lemma at_vertex_app A x u : at_vertex (A ++ [x]) u =
  at_vertex A u ++ if (rq_src x =? u) || (rq_tgt x =? u) then [length A] else [].
Proof.
  unfold at_vertex. rewrite app_length, seq_app, filter_app. cbn [length seq filter Nat.add]. f_equal.
  - apply filter_ext_in. intros i H. apply in_seq in H. now rewrite nth_error_app1 by lia.
  - rewrite nth_error_app2, Nat.sub_diag by lia. destruct x as [[a b] p]. reflexivity.
Qed.

Lemma it_out_at c R u : is_undirected c = true -> map it_idx (it_out c R u) = at_vertex (rev R) u.
Proof.
  intro U. induction R as [|[[a b] p] R IH]; [reflexivity|]. cbn [it_out rev].
  rewrite at_vertex_app, map_app, IH, U, rev_length. unfold rq_src, rq_tgt. cbn [fst snd andb]. f_equal.
  destruct (a =? u), (b =? u); reflexivity.
Qed.

Lemma imap_forall2 {X Y Z} (f : nat -> X -> Y) (h : nat -> X -> Z) (P : Y -> Z -> Prop) l : forall k,
  (forall i x, nth_error l i = Some x -> P (f (k + i) x) (h (k + i) x)) -> Forall2 P (imap f k l) (imap h k l).
Proof.
  induction l as [|x l IH]; intros k H; cbn [imap]; constructor.
  - specialize (H 0 x eq_refl). now rewrite Nat.add_0_r in H.
  - apply IH. intros i y N. specialize (H (S i) y N). now rewrite Nat.add_succ_r in H.
Qed.

Lemma Forall2_map_map {X Y X' Y'} (f : X -> X') (h : Y -> Y') (P : X' -> Y' -> Prop) l m :
  Forall2 (fun x y => P (f x) (h y)) l m -> Forall2 P (map f l) (map h m).
Proof. induction 1; constructor; auto. Qed.

(** Bridges are the accepted requests without which their ends are not connected; the flag for parallel
    edges may be cleared for a graph without them. *)
Theorem C125_bridges c n0 h e0 g rs parallel cm :
  AdjModel.run c (empty_graph n0) h e0 = Ok (g, rs) -> c_dir c = Undirected ->
  (parallel = false -> c_unique c = true) ->
  let A := accept (c_unique c) true [] h in
  exists k s ids, (forall f, k <= f -> find_bridges parallel f (view c g) cm = Ok s) /\
    Forall2 (stands c A) (br_out s) ids /\ NoDup ids /\
    Forall2 (fun e i => exists p,
       nth_error A i = Some (e_src e, e_tgt e, p) \/ nth_error A i = Some (e_tgt e, e_src e, p)) (br_out s) ids /\
    (forall i u v p, nth_error A i = Some (u, v, p) ->
       In i ids <-> ~ connected (linked_without true A i) u v) /\
    (forall v w, v < vertex_count g -> w < vertex_count g ->
       cs_map (br_c s) v = cs_map (br_c s) w <-> forall i, connected (linked_without true A i) v w).
Proof.
  intros Run U PF. cbv zeta. set (A := accept (c_unique c) true [] h).
  assert (UU : is_undirected c = true) by (unfold is_undirected; now rewrite U).
  set (c' := {| c_dir := c_dir c; c_unique := c_unique c; c_sel := SelTwo |}).
  destruct (built_stored c n0 h e0 g rs Run) as (R & EG & B & EA). rewrite UU in EA. fold A in EA.
  destruct (history c' n0 h e0) as (R' & rs' & Run' & B' & EA' & _).
  assert (ER : R' = R).
  { rewrite <- (rev_involutive R'), <- (rev_involutive R), EA, EA'. f_equal. unfold A. now rewrite <- UU. }
  subst R'.
  destruct (bridges_kept c' n0 h e0 _ rs' parallel cm Run' U ltac:(discriminate) PF) as (k & t & E & N & I & X & F).
  fold A in I, X, F. cbn [c_unique c'] in I, X, F. fold A in I, X, F.
  set (rel := fun e f : GraphModel.edge => e_src e = e_src f /\ e_tgt e = e_tgt f /\ stands c A e (e_id f)).
  assert (OUT : forall u, Forall2 rel (g_out (view c g) u) (g_out (view c' (stored c' (needed n0 h) R)) u)).
  { intro u. rewrite EG. destruct (Nat.lt_ge_cases u (needed n0 h)) as [L|L];
      [|rewrite !view_none by exact L; constructor].
    rewrite !view_out by exact L. apply Forall2_map_map. unfold oe.
    change (it_out c' R u) with (it_out c R u). apply imap_forall2. intros i x Hi. cbn [Nat.add].
    unfold rel, oe_of, stands, sel_none. cbn [e_src e_tgt e_id AdjModel.e_source AdjModel.e_target AdjModel.e_bundle c_sel c'].
    split; [reflexivity|]. split; [reflexivity|].
    destruct (c_sel c); try reflexivity. rewrite <- EA, <- (it_out_at c R u UU), nth_error_map, Hi. reflexivity. }
  assert (REL : forall f, orel (bridge_rel rel) (find_bridges parallel f (view c g) cm)
      (find_bridges parallel f (view c' (stored c' (needed n0 h) R)) cm)).
  { intro f. apply find_bridges_rel; [now intros ? ? (? & _)|now intros ? ? (_ & ? & _)| |exact OUT].
    rewrite EG, !view_n. reflexivity. }
  assert (FUN : forall e e' f, rel e f -> rel e' f -> e = e').
  { intros [j1 s1 t1] [j2 s2 t2] f (H1 & H2 & H3) (K1 & K2 & K3). unfold stands in *.
    cbn [GraphModel.e_src GraphModel.e_tgt GraphModel.e_id] in *. subst.
    enough (j1 = j2) by congruence. destruct (c_sel c); try congruence.
    apply (proj1 (NoDup_nth_error (at_vertex A (GraphModel.e_src f)))); [|apply nth_error_Some|]; try congruence.
    unfold at_vertex. apply NoDup_filter, seq_NoDup. }
  assert (VC : vertex_count g = vertex_count (stored c' (needed n0 h) R)).
  { transitivity (needed n0 h); [|symmetry; exact (view_n c' (needed n0 h) R)].
    rewrite EG. exact (view_n c (needed n0 h) R). }
  pose proof (REL k) as RK. rewrite (E k (le_n _)) in RK.
  destruct (find_bridges parallel k (view c g) cm) as [s| | | |] eqn:ES; cbn in RK; try contradiction.
  pose proof RK as (RO & RC & _).
  exists k, s, (map e_id (br_out t)). split; [|split; [|split; [exact N|split; [|split; [exact X|]]]]].
  - intros f L. pose proof (REL f) as RF. rewrite (E f L) in RF.
    destruct (find_bridges parallel f (view c g) cm) as [s'| | | |]; cbn in RF; try contradiction. f_equal.
    destruct RF as (RO' & B1 & B2 & B3 & B4 & B5), RK as (_ & C1 & C2 & C3 & C4 & C5).
    assert (EO : br_out s' = br_out s).
    { clear - RO RO' FUN. revert RO RO'. generalize (br_out s) (br_out s') (br_out t). intros l l' m Q. revert l'.
      induction Q as [|e f l m H Q IH]; intros l' Q'; inversion Q' as [|e' f' m1 m2 H' Q1]; subst; [reflexivity|].
      f_equal; [eapply FUN; eauto|now apply IH]. }
    destruct s as [o1 o2 o3 o4 o5 o6], s' as [p1 p2 p3 p4 p5 p6].
    cbn [br_out br_c br_low br_not_root br_now br_top] in *. congruence.
  - rewrite <- (map_id (br_out s)). apply Forall2_map_map.
    clear - RO. induction RO as [|e f l m (_ & _ & H)]; constructor; auto.
  - rewrite <- (map_id (br_out s)). apply Forall2_map_map. clear - RO I.
    induction RO as [|e f l m (H1 & H2 & _)]; constructor.
    + rewrite H1, H2. apply I. now left.
    + apply IHRO. intros e' H'. apply I. now right.
  - intros v w Lv Lw. rewrite RC. apply F; congruence.
Qed.

(** Every vertex that separates two others is reported (the converse fails, C45). *)
Theorem C125_cut_vertices c n0 h e0 g rs am cm :
  AdjModel.run c (empty_graph n0) h e0 = Ok (g, rs) -> is_undirected c = true ->
  exists k s, (forall f, k <= f -> find_articulation_points f (view c g) am cm = Ok s) /\
    forall u v w, u < vertex_count g -> v <> u -> w <> u -> connected (linked true h) v w ->
      ~ connected (fun a b => linked true h a b /\ a <> u /\ b <> u) v w -> ap_map s u = true.
Proof.
  intros Run U. pose proof (built_arc c n0 h e0 g rs Run) as AR. rewrite U in AR.
  destruct (C45_cut_vertices_reported (view c g) am cm (built_wf c n0 h e0 g rs Run)
    (built_symmetric c n0 h e0 g rs Run U)) as (k & s & E & R).
  exists k, s. split; [exact E|]. intros u v w Lu Dv Dw CN NC. apply (R u Lu). exists v, w.
  split; [exact Dv|]. split; [exact Dw|]. split; [now apply (reach_connected _ _ _ _ AR)|].
  intro RA. apply NC. clear - RA AR Dv. induction RA as [NI|a b RA IH AB NB]; [exists 0; constructor|].
  destruct IH as [n P]. exists (S n). econstructor; [exact P|]. split; [now apply AR|].
  split; [|intros ->; apply NB; now left].
  clear - RA. inversion RA as [NI|? ? ? ? NI]; subst; intros ->; apply NI; now left.
Qed.

(** Equal labels of strong components mean paths in both directions. *)
Theorem C125_strong_components c n0 h e0 g rs cm :
  AdjModel.run c (empty_graph n0) h e0 = Ok (g, rs) -> (Z.of_nat (vertex_count g) < 2 ^ 31 - 1)%Z ->
  exists k s, (forall f, k <= f -> find_strong_components f (view c g) cm = Ok s) /\
    (forall v w, v < vertex_count g -> w < vertex_count g -> cs_map (tj_c s) v = cs_map (tj_c s) w ->
       connected (linked (is_undirected c) h) v w /\ connected (linked (is_undirected c) h) w v).
Proof.
  intros Run L. pose proof (built_arc c n0 h e0 g rs Run) as AR.
  destruct (C44_equal_labels_strongly_connected (view c g) cm (built_wf c n0 h e0 g rs Run) L)
    as (k & s & E & _ & _ & R).
  exists k, s. split; [exact E|]. intros v w Lv Lw EQ. destruct (R v w Lv Lw EQ).
  split; now apply (reach_connected _ _ _ _ AR).
Qed.

(** ** Cases: a loop, a repeated request, a vertex that is only mentioned *)
Definition c_und := {| c_dir := Undirected; c_unique := true; c_sel := SelOne |}.
Definition c_dirn := {| c_dir := Directed; c_unique := false; c_sel := SelNone |}.
Definition built (c : config) (n0 : nat) h : graph :=
  match AdjModel.run c (empty_graph n0) h (fun _ => 0) with
  | Ok (g, _) => view c g
  | _ => {| g_n := 0; g_out := fun _ => [] |}
  end.

Example C125_case :
  let h := [(0, 1, 5); (1, 2, 5); (2, 0, 5); (0, 2, 6); (3, 2, 5); (5, 5, 5)] in
  let g := built c_und 2 h in
  omap (fun m => map m (vertices g)) (bfs distance_visitor g always_false 20 (fun _ => 9%Z) [3]) = Ok [2; 2; 1; 0; -1; -1]%Z /\
  omap (fun s => map e_id (br_out s)) (find_bridges true 100 g (fun _ => 9%Z)) = Ok [3] /\
  omap (fun p => map (fst p) (vertices g)) (dfs_all cc_visitor g always_false 99 (fun _ => 9%Z, 0%Z)) = Ok [0; 0; 0; 0; 1; 2]%Z.
Proof. vm_compute. auto. Qed.

(** Without a container of edges: the third request is the last at vertex 1 and a bridge. *)
Example C125_case_positions :
  let c := {| c_dir := Undirected; c_unique := false; c_sel := SelNone |} in
  let h := [(0, 1, 5); (1, 0, 5); (2, 1, 5)] in
  omap (fun s => map (fun e => (e_src e, e_id e)) (br_out s)) (find_bridges true 100 (built c 0 h) (fun _ => 9%Z)) = Ok [(1, 2)] /\
  at_vertex h 1 = [0; 1; 2].
Proof. vm_compute. auto. Qed.

Example C125_case_order :
  topological_sort 99 (built c_dirn 0 [(3, 1, 0); (1, 0, 0); (3, 0, 0); (2, 3, 0)]) (fun _ => true) = Ok [0; 1; 3; 2].
Proof. reflexivity. Qed.

Print Assumptions C125_distance.
Print Assumptions C125_depth_first.
Print Assumptions C125_topological_sort.
Print Assumptions C125_connected_components.
Print Assumptions C125_bridges.
Print Assumptions C125_cut_vertices.
Print Assumptions C125_strong_components.
