(** Breadth-first search: reachability, distances, predecessors. *)
From Coq Require Import ZArith List Bool PeanoNat Lia Permutation Sorted.
From Verif Require Import Outcome GraphModel DfsProofs DfsResults.
Import ListNotations.

(** ** Specification *)
(** A walk with [n] edges. *)
Inductive walk (g : graph) (u : nat) : nat -> nat -> Prop :=
| walk_nil : walk g u 0 u
| walk_snoc n v w : walk g u n v -> arc g v w -> walk g u (S n) w.
(** [n] is the number of edges on a shortest path to [v] from one of [src]. *)
Definition distance_is (g : graph) (src : list nat) (v n : nat) : Prop :=
  (exists s, In s src /\ walk g s n v) /\ forall s k, In s src -> walk g s k v -> n <= k.
(** Following the predecessors from [v] leads back to [r] along [k] edges. *)
Inductive pred_chain (g : graph) (p : nat -> option nat) (r : nat) : nat -> nat -> Prop :=
| pc_root : p r = Some r -> pred_chain g p r 0 r
| pc_step k x v : p v = Some x -> arc g x v -> pred_chain g p r k x -> pred_chain g p r (S k) v.

Lemma walk_reach g u n v : walk g u n v -> reach g u v.
Proof. induction 1; [apply reach_refl | eapply reach_step; eauto]. Qed.
Lemma reach_walk g u v : reach g u v -> exists n, walk g u n v.
Proof. induction 1 as [|v w _ (n & IH) Ha]; [exists 0; constructor | exists (S n); econstructor; eauto]. Qed.

(** ** Big-step description *)
Section BigStep.
  Variable g : graph.
  (** Edges [es] of the current vertex with [D] discovered: events, vertices
      appended to the queue, discovered vertices afterwards. *)
  Inductive bfs_es : list edge -> list nat -> list event -> list nat -> list nat -> Prop :=
  | be_nil D : bfs_es [] D [] [] D
  | be_non e es D t q D' : In (e_tgt e) D -> bfs_es es D t q D' -> bfs_es (e :: es) D (ENonTree e :: t) q D'
  | be_tree e es D t q D' : ~ In (e_tgt e) D -> bfs_es es (e_tgt e :: D) t q D' ->
      bfs_es (e :: es) D (ETreeStart e :: EDiscover (e_tgt e) :: ETreeFinish e :: t) (e_tgt e :: q) D'.
  Inductive bfs_q : list nat -> list nat -> list event -> list nat -> Prop :=
  | bq_nil D : bfs_q [] D [ESearchFinish None] D
  | bq_cons u q D t1 qn D1 t2 D' :
      bfs_es (g_out g u) D t1 qn D1 -> bfs_q (q ++ qn) D1 t2 D' ->
      bfs_q (u :: q) D (EStart u :: t1 ++ EFinish u :: t2) D'.
  Definition source_events (src : list nat) : list event := flat_map (fun s => [ESearchStart s; EDiscover s]) src.

  Lemma bfs_es_facts es D t qn D' : bfs_es es D t qn D' ->
    D' = rev qn ++ D /\ discovers t = qn /\ starts t = [] /\ finishes t = [] /\ examined t = es /\
    NoDup qn /\ (forall v, In v qn -> ~ In v D) /\ (forall v, In v qn -> exists e, In e es /\ e_tgt e = v) /\
    (forall e, In e es -> In (e_tgt e) D').
  Proof.
    induction 1 as [D|e es D t q D' Hi H (A & B & C & C' & E & N & F & G & I)|e es D t q D' Hn H (A & B & C & C' & E & N & F & G & I)].
    - repeat split; try easy. constructor.
    - split; [assumption|]. split; [exact B|]. split; [exact C|]. split; [exact C'|]. split; [cbn; fold (examined t); now rewrite E|].
      split; [assumption|]. split; [assumption|]. split.
      + intros v Hv. destruct (G v Hv) as (e' & ? & ?). exists e'. split; [now right | assumption].
      + intros e' [<-|He]; [|auto]. rewrite A. apply in_app_iff. now right.
    - split; [rewrite A; cbn; now rewrite <- app_assoc|]. split; [cbn; fold (discovers t); now rewrite B|].
      split; [exact C|]. split; [exact C'|]. split; [cbn; fold (examined t); now rewrite E|].
      split; [constructor; [intro X; apply (F _ X); now left | assumption]|]. split; [|split].
      + intros v [<-|Hv]; [assumption|]. intro. apply (F v Hv). now right.
      + intros v [<-|Hv]; [exists e; split; [now left | reflexivity]|].
        destruct (G v Hv) as (e' & ? & ?). exists e'. split; [now right | assumption].
      + intros e' [<-|He]; [|auto]. rewrite A. apply in_app_iff. right. now left.
  Qed.
  Lemma bfs_es_exists es : forall D, exists t qn D', bfs_es es D t qn D'.
  Proof.
    induction es as [|e es IH]; intro D; [repeat eexists; constructor|].
    destruct (in_dec Nat.eq_dec (e_tgt e) D) as [Hi|Hi].
    - destruct (IH D) as (t & q & D' & H). repeat eexists. now apply be_non; eauto.
    - destruct (IH (e_tgt e :: D)) as (t & q & D' & H). repeat eexists. apply be_tree; eauto.
  Qed.

  Hypothesis wf : wf_graph g.
  Lemma undiscovered_new qn D : NoDup qn -> (forall v, In v qn -> ~ In v D) -> (forall v, In v qn -> v < g_n g) ->
    length qn + length (undiscovered g (rev qn ++ D)) <= length (undiscovered g D).
  Proof.
    intros N F L. rewrite <- app_length. apply NoDup_incl_length.
    - apply NoDup_app_intro; [assumption | apply NoDup_filter, seq_NoDup |].
      intros v Hv Hu. apply undiscovered_in in Hu. destruct Hu as (_ & X). apply X. apply in_app_iff. left. now rewrite <- in_rev.
    - intros v Hv. apply in_app_iff in Hv. apply undiscovered_in. destruct Hv as [Hv|Hv]; [auto|].
      apply undiscovered_in in Hv. destruct Hv as (? & X). split; [assumption|]. intro. apply X. apply in_app_iff. now right.
  Qed.
  Lemma bfs_q_exists q D : exists t D', bfs_q q D t D'.
  Proof.
    assert (forall k q D, length q + length (undiscovered g D) <= k -> exists t D', bfs_q q D t D') as H; [|eapply H; eauto].
    clear q D. induction k as [|k IH]; intros q D Hk.
    - destruct q; [|cbn in Hk; lia]. repeat eexists. constructor.
    - destruct q as [|u q]; [repeat eexists; constructor|].
      destruct (bfs_es_exists (g_out g u) D) as (t1 & qn & D1 & H1).
      destruct (bfs_es_facts _ _ _ _ _ H1) as (A & _ & _ & _ & _ & N & F & G & _).
      destruct (IH (q ++ qn) D1) as (t2 & D' & H2).
      + rewrite A, app_length. cbn in Hk.
        assert (length qn + length (undiscovered g (rev qn ++ D)) <= length (undiscovered g D)).
        { apply undiscovered_new; auto. intros v Hv. destruct (G v Hv) as (e & He & <-). now apply (wf u). }
        lia.
      + repeat eexists. eapply bq_cons; eauto.
  Qed.

  (** Vertices are started in the order of discovery. *)
  Lemma bfs_q_facts q D t D' : bfs_q q D t D' ->
    D' = rev (discovers t) ++ D /\ starts t = q ++ discovers t /\ finishes t = starts t /\
    examined t = flat_map (g_out g) (starts t) /\
    NoDup (discovers t) /\ (forall v, In v (discovers t) -> ~ In v D).
  Proof.
    induction 1 as [D|u q D t1 qn D1 t2 D' H1 H2 (A & B & B' & C & N & F)].
    - repeat split; try easy. constructor.
    - destruct (bfs_es_facts _ _ _ _ _ H1) as (A1 & B1 & C1 & C1' & E1 & N1 & F1 & G1 & _).
      assert (discovers (EStart u :: t1 ++ EFinish u :: t2) = qn ++ discovers t2) as Ed.
      { change (discovers (EStart u :: t1 ++ EFinish u :: t2)) with (discovers (t1 ++ EFinish u :: t2)).
        rewrite discovers_app, B1. reflexivity. }
      assert (starts (EStart u :: t1 ++ EFinish u :: t2) = u :: starts t2) as Es.
      { change (starts (EStart u :: t1 ++ EFinish u :: t2)) with (u :: starts (t1 ++ EFinish u :: t2)).
        rewrite starts_app, C1. reflexivity. }
      assert (finishes (EStart u :: t1 ++ EFinish u :: t2) = u :: finishes t2) as Ef.
      { change (finishes (EStart u :: t1 ++ EFinish u :: t2)) with (finishes (t1 ++ EFinish u :: t2)).
        rewrite finishes_app, C1'. reflexivity. }
      assert (examined (EStart u :: t1 ++ EFinish u :: t2) = g_out g u ++ examined t2) as Ex.
      { change (examined (EStart u :: t1 ++ EFinish u :: t2)) with (examined (t1 ++ EFinish u :: t2)).
        rewrite examined_app, E1. reflexivity. }
      rewrite Ed, Es, Ef, Ex. split; [|split; [|split; [|split; [|split]]]].
      + rewrite A, A1, rev_app_distr, app_assoc. reflexivity.
      + rewrite B, <- app_assoc. reflexivity.
      + now rewrite B'.
      + cbn [flat_map]. now rewrite C.
      + apply NoDup_app_intro; auto. intros v Hv Hv2. apply (F v Hv2). rewrite A1. apply in_app_iff. left. now rewrite <- in_rev.
      + intros v Hv. apply in_app_iff in Hv. destruct Hv as [Hv|Hv]; [auto|].
        intro. apply (F v Hv). rewrite A1. apply in_app_iff. now right.
  Qed.
  Lemma bfs_q_closed q D t D' : bfs_q q D t D' ->
    (forall v, In v q -> In v D) -> (forall v w, In v D -> ~ In v q -> arc g v w -> In w D) ->
    forall v w, In v D' -> arc g v w -> In w D'.
  Proof.
    induction 1 as [D|u q D t1 qn D1 t2 D' H1 H2 IH]; intros Hq Hc; [intros v w Hv; now apply (Hc v)|].
    destruct (bfs_es_facts _ _ _ _ _ H1) as (A1 & _ & _ & _ & _ & _ & _ & _ & G).
    assert (forall v, In v D1 <-> In v qn \/ In v D) as Id by (intro; rewrite A1, in_app_iff, <- in_rev; tauto).
    apply IH.
    - intros v Hv. apply Id. apply in_app_iff in Hv. destruct Hv as [Hv|Hv]; [right; apply Hq; now right | tauto].
    - intros v w Hv Hn Ha. rewrite in_app_iff in Hn. apply Id in Hv. destruct Hv as [Hv|Hv]; [tauto|].
      destruct (Nat.eq_dec v u) as [->|n].
      + destruct Ha as (e & He & <-). now apply G.
      + apply Id. right. apply (Hc v); [assumption | intros [?|?]; [congruence | tauto] | assumption].
  Qed.
  Lemma bfs_q_reach q D t D' (X : nat -> Prop) : bfs_q q D t D' ->
    (forall v, In v q -> X v) -> (forall v, In v D -> X v) -> (forall v w, X v -> arc g v w -> X w) ->
    forall v, In v D' -> X v.
  Proof.
    intros H Hq HD Hc. induction H as [D|u q D t1 qn D1 t2 D' H1 H2 IH]; [assumption|].
    destruct (bfs_es_facts _ _ _ _ _ H1) as (A1 & _ & _ & _ & _ & _ & _ & G & _).
    assert (forall v, In v qn -> X v) as Hqn.
    { intros v Hv. destruct (G v Hv) as (e & He & <-). apply (Hc u); [apply Hq; now left | now exists e]. }
    apply IH.
    - intros v Hv. apply in_app_iff in Hv. destruct Hv as [Hv|Hv]; [apply Hq; now right | auto].
    - intros v Hv. rewrite A1, in_app_iff, <- in_rev in Hv. destruct Hv; auto.
  Qed.
  (** The discovered vertices are those reachable from the sources. *)
  Lemma bfs_q_exact src t D' v : bfs_q src (rev src) t D' -> In v D' <-> exists s, In s src /\ reach g s v.
  Proof.
    intro H. split.
    - apply (bfs_q_reach src (rev src) t D' (fun v => exists s, In s src /\ reach g s v) H).
      + intros x Hx. exists x. split; [assumption | apply reach_refl].
      + intros x Hx. exists x. rewrite in_rev. split; [assumption | apply reach_refl].
      + intros x w (s & Hs & R) Ha. exists s. split; [assumption | eapply reach_step; eauto].
    - intros (s & Hs & R). induction R as [|x w R IH Ha].
      + destruct (bfs_q_facts _ _ _ _ H) as (-> & _). apply in_app_iff. right. now rewrite <- in_rev.
      + apply (bfs_q_closed _ _ _ _ H) with x; auto.
        * intros y Hy. now rewrite <- in_rev.
        * intros y z Hy Hn. rewrite <- in_rev in Hy. contradiction.
  Qed.
End BigStep.

(** ** The search follows the big-step description *)
Record bfs_disciplined (g : graph) {S} (V : visitor S) (R : list nat -> S -> Prop) : Prop := {
  b_disc D s v : R D s -> v < g_n g -> v_disc V s v = true <-> In v D;
  b_root D s u : R D s -> u < g_n g -> ~ In u D -> R (u :: D) (v_step V (EDiscover u) (v_step V (ESearchStart u) s));
  b_start D s u : R D s -> In u D -> R D (v_step V (EStart u) s);
  b_tree D s e : R D s -> In (e_src e) D -> e_tgt e < g_n g -> ~ In (e_tgt e) D ->
    R (e_tgt e :: D) (v_step V (ETreeFinish e) (v_step V (EDiscover (e_tgt e)) (v_step V (ETreeStart e) s)));
  b_non D s e : R D s -> In (e_src e) D -> In (e_tgt e) D -> R D (v_step V (ENonTree e) s);
  b_fin D s u : R D s -> In u D -> R D (v_step V (EFinish u) s);
  b_sfin D s : R D s -> R D (v_step V (ESearchFinish None) s) }.

Section Refine.
  Context {S : Type}.
  Variable V : visitor S.
  Variable g : graph.
  Variable R : list nat -> S -> Prop.
  Hypothesis wf : wf_graph g.
  Hypothesis disc : bfs_disciplined g V R.

  Lemma bfs_edges_run u es D t qn D' : bfs_es es D t qn D' -> incl es (g_out g u) -> In u D -> forall s q, R D s ->
    bfs_edges V always_false s q es = inl (run V t s, q ++ qn) /\ R D' (run V t s).
  Proof.
    induction 1 as [D|e es D t qn D' Hi H IH|e es D t qn D' Hn H IH]; intros Hs Hu s q HR.
    - cbn. now rewrite app_nil_r.
    - assert (In e (g_out g u)) as He by (apply Hs; now left). destruct (wf _ _ He) as (E1 & E2).
      cbn [bfs_edges]. rewrite (proj2 (b_disc _ _ _ disc D s (e_tgt e) HR E2) Hi).
      apply (IH ltac:(intros x Hx; apply Hs; now right) Hu (v_step V (ENonTree e) s)).
      apply (b_non _ _ _ disc); [assumption | now rewrite E1 | assumption].
    - assert (In e (g_out g u)) as He by (apply Hs; now left). destruct (wf _ _ He) as (E1 & E2).
      cbn [bfs_edges]. assert (v_disc V s (e_tgt e) = false) as ->.
      { apply not_true_iff_false. now rewrite (b_disc _ _ _ disc D s (e_tgt e) HR E2). }
      unfold bfs_discover, always_false.
      destruct (IH ltac:(intros x Hx; apply Hs; now right) (or_intror Hu)
        (v_step V (ETreeFinish e) (v_step V (EDiscover (e_tgt e)) (v_step V (ETreeStart e) s))) (q ++ [e_tgt e])) as (A & B).
      { apply (b_tree _ _ _ disc); [assumption | now rewrite E1 | assumption | assumption]. }
      rewrite <- app_assoc in A. split; [exact A | exact B].
  Qed.
  Lemma bfs_loop_run q D t D' : bfs_q g q D t D' -> (forall v, In v q -> In v D) -> forall s, R D s ->
    R D' (run V t s) /\ exists k, forall f, k <= f -> bfs_loop V g always_false f s q = Ok (run V t s).
  Proof.
    induction 1 as [D|u q D t1 qn D1 t2 D' H1 H2 IH]; intros Hq s HR.
    - split; [now apply (b_sfin _ _ _ disc)|]. exists 0. intros f _. now destruct f.
    - assert (In u D) as Hu by (apply Hq; now left).
      destruct (bfs_edges_run u (g_out g u) D t1 qn D1 H1 (incl_refl _) Hu (v_step V (EStart u) s) q) as (A & B).
      { now apply (b_start _ _ _ disc). }
      destruct (bfs_es_facts _ _ _ _ _ H1) as (A1 & _).
      assert (forall v, In v D -> In v D1) as Id by (intros; rewrite A1; apply in_app_iff; now right).
      destruct (IH) with (s := v_step V (EFinish u) (run V t1 (v_step V (EStart u) s))) as (RE & k & E).
      + intros v Hv. apply in_app_iff in Hv. destruct Hv as [Hv|Hv]; [apply Id, Hq; now right|].
        rewrite A1. apply in_app_iff. left. now rewrite <- in_rev.
      + apply (b_fin _ _ _ disc); auto.
      + change (run V (EStart u :: t1 ++ EFinish u :: t2) s) with (run V (t1 ++ EFinish u :: t2) (v_step V (EStart u) s)).
        rewrite run_app. split; [exact RE|].
        exists (1 + k). intros [|f] Hf; [lia|]. cbn [bfs_loop]. rewrite A. now rewrite E by lia.
  Qed.
  Lemma bfs_sources_run src : forall D s q, NoDup src -> (forall v, In v src -> v < g_n g /\ ~ In v D) -> R D s ->
    bfs_sources V always_false s q src = inl (run V (source_events src) s, q ++ src) /\
    R (rev src ++ D) (run V (source_events src) s).
  Proof.
    induction src as [|u src IH]; intros D s q N L HR; [cbn; now rewrite app_nil_r|].
    inversion_clear N as [|? ? Hu N']. cbn [bfs_sources]. unfold bfs_discover, always_false.
    destruct (L u (or_introl eq_refl)) as (Lu & Du).
    destruct (IH (u :: D) (v_step V (EDiscover u) (v_step V (ESearchStart u) s)) (q ++ [u]) N') as (A & B).
    - intros v Hv. destruct (L v (or_intror Hv)). split; [assumption|]. intros [->|?]; contradiction.
    - now apply (b_root _ _ _ disc).
    - rewrite <- app_assoc in A. split; [exact A|]. cbn [rev]. rewrite <- app_assoc. exact B.
  Qed.
  Theorem bfs_run src t D' s : bfs_q g src (rev src) t D' -> NoDup src -> (forall v, In v src -> v < g_n g) -> R [] (init_all V g s) ->
    R D' (run V (source_events src ++ t) (init_all V g s)) /\
    exists k, forall f, k <= f -> bfs V g always_false f s src = Ok (run V (source_events src ++ t) (init_all V g s)).
  Proof.
    intros H N L HR. destruct (bfs_sources_run src [] (init_all V g s) [] N) as (A & B); [auto | assumption |].
    rewrite app_nil_r in B.
    destruct (bfs_loop_run _ _ _ _ H (fun v Hv => proj1 (in_rev src v) Hv) _ B) as (RE & k & E).
    rewrite run_app. split; [exact RE|].
    exists k. intros f Hf. unfold bfs. rewrite A. cbn [app]. now rewrite E.
  Qed.
End Refine.

(** ** discovered_flag and arbitrary components *)
Lemma flag_bfs_disciplined g {S} (c : component S) : c_disc c = None -> bfs_disciplined g (with_flag c) (flag_ok g).
Proof.
  intro N.
  assert (forall D (s : S * (nat -> bool)) (a : S) u, flag_ok g D s -> flag_ok g (u :: D) (a, upd (snd s) u true)) as A.
  { intros D [a0 m] a u H v Hv. cbn. unfold upd. destruct (Nat.eqb_spec v u) as [->|n]; [tauto|].
    specialize (H v Hv). cbn in H. rewrite H. intuition congruence. }
  split; intros; try (apply A; assumption); try assumption. cbn. rewrite N. now apply H.
Qed.
Theorem bfs_events g src : wf_graph g -> NoDup src -> (forall v, In v src -> v < g_n g) ->
  exists t D', bfs_q g src (rev src) t D' /\
    forall S (c : component S) s m, c_disc c = None -> exists m' k, forall f, k <= f ->
      bfs (with_flag c) g always_false f (s, m) src = Ok (crun c (init_events g ++ source_events src ++ t) s, m').
Proof.
  intros wf N L. destruct (bfs_q_exists g wf src (rev src)) as (t & D' & H). exists t, D'. split; [assumption|].
  intros S c s m N0. destruct (bfs_run (with_flag c) g (flag_ok g) wf (flag_bfs_disciplined g c N0) src t D' (s, m) H N L (flag_init g c _)) as (_ & k & E).
  rewrite init_all_run, <- run_app in E. eexists _, k. intros f Hf. rewrite (E f Hf), run_with_flag. reflexivity.
Qed.

(** Events other than the initialization. *)
Definition no_init (ev : event) : Prop := match ev with EInit _ => False | _ => True end.
Lemma source_no_init src : Forall no_init (source_events src).
Proof. induction src; repeat constructor; auto. Qed.
Lemma bfs_q_no_init g q D t D' : bfs_q g q D t D' -> Forall no_init t.
Proof.
  induction 1 as [D|u q D t1 qn D1 t2 D' H1 H2 IH]; repeat constructor.
  apply Forall_app. split; [|repeat constructor; assumption].
  clear - H1. induction H1; repeat constructor; auto.
Qed.
Lemma vertex_initializer_run {S T} get put eqb (value : T) (base : component S) t s : Forall no_init t ->
  crun (vertex_initializer get put eqb value base) t s = crun base t s.
Proof.
  intro H. revert s. induction H as [|ev t Hev _ IH]; intro s; [reflexivity|].
  rewrite !crun_cons, IH. now destruct ev.
Qed.

(** ** Distances *)
Local Open Scope Z_scope.
Section Distance.
  Variable g : graph.
  Hypothesis wf : wf_graph g.
  Variable src : list nat.

  (** Between two vertices of the queue. *)
  Record dist_inv (q D : list nat) (m : nat -> Z) : Prop := {
    j_walk v : In v D -> 0 <= m v /\ exists s, In s src /\ walk g s (Z.to_nat (m v)) v;
    j_src s : In s src -> In s D /\ m s = 0;
    j_done v w : In v D -> ~ In v q -> arc g v w -> In w D /\ m w <= m v + 1;
    j_in v : In v q -> In v D;
    j_sorted : StronglySorted Z.le (map m q);
    j_max u q' : q = u :: q' -> forall v, In v D -> m v <= m u + 1;
    j_order : StronglySorted Z.ge (map m D) }.
  (** While the edges of [u] are processed; [es] remain. *)
  Record dist_inv_es (u : nat) (es : list edge) (q D : list nat) (m : nat -> Z) : Prop := {
    k_u : In u D;
    k_walk v : In v D -> 0 <= m v /\ exists s, In s src /\ walk g s (Z.to_nat (m v)) v;
    k_src s : In s src -> In s D /\ m s = 0;
    k_done v w : In v D -> ~ In v q -> v <> u -> arc g v w -> In w D /\ m w <= m v + 1;
    k_cur w : arc g u w -> (In w D /\ m w <= m u + 1) \/ exists e, In e es /\ e_tgt e = w;
    k_in v : In v q -> In v D;
    k_sorted : StronglySorted Z.le (map m q);
    k_min v : In v q -> m u <= m v;
    k_max v : In v D -> m v <= m u + 1;
    k_order : StronglySorted Z.ge (map m D) }.

  Lemma StronglySorted_snoc l x : StronglySorted Z.le l -> (forall y, In y l -> y <= x) -> StronglySorted Z.le (l ++ [x]).
  Proof.
    induction 1 as [|a l H IH Ha]; intro Hx; cbn.
    - constructor; constructor.
    - constructor; [apply IH; intros; apply Hx; now right|].
      apply Forall_app. split; [assumption|]. constructor; [apply Hx; now left | constructor].
  Qed.
  Lemma StronglySorted_init (R : Z -> Z -> Prop) l x : StronglySorted R (l ++ [x]) -> StronglySorted R l.
  Proof.
    induction l as [|a l IH]; cbn; intro H; constructor; inversion_clear H as [|? ? S F].
    - now apply IH.
    - apply Forall_app in F. tauto.
  Qed.
  Lemma map_upd_notin (m : nat -> Z) x y l : ~ In x l -> map (upd m x y) l = map m l.
  Proof. intro H. apply map_ext_in. intros a Ha. apply upd_other. intros ->. contradiction. Qed.

  Lemma dist_edges u es D t qn D' : bfs_es es D t qn D' -> incl es (g_out g u) -> forall q m,
    dist_inv_es u es q D m -> dist_inv_es u [] (q ++ qn) D' (crun distance_recorder t m).
  Proof.
    induction 1 as [D|e es D t qn D' Hi H IH|e es D t qn D' Hn H IH]; intros Hs q m K.
    - now rewrite app_nil_r.
    - apply (IH ltac:(intros x Hx; apply Hs; now right) q m). destruct K. split; auto.
      intros w Ha. destruct (k_cur0 w Ha) as [?|(e' & [<-|He] & E)]; [tauto | | right; now exists e'].
      left. subst w. split; [assumption | now apply k_max0].
    - assert (In e (g_out g u)) as He by (apply Hs; now left). destruct (wf _ _ He) as (E1 & E2).
      change (e_tgt e :: qn) with ([e_tgt e] ++ qn). rewrite app_assoc.
      apply (IH ltac:(intros x Hx; apply Hs; now right) (q ++ [e_tgt e]) (upd m (e_tgt e) (m (e_src e) + 1))).
      rewrite E1. set (x := e_tgt e) in *. destruct K.
      assert (x <> u) as xu by (intros ->; contradiction).
      assert (forall v, In v D -> upd m x (m u + 1) v = m v) as Old by (intros v Hv; apply upd_other; intros ->; contradiction).
      assert (~ In x q) as Hq by (intro; auto).
      assert (arc g u x) as Hux by now exists e.
      split.
      + now right.
      + intros v [<-|Hv].
        * rewrite upd_same. destruct (k_walk0 u k_u0) as (H0 & s & Hsrc & Hw). split; [lia|]. exists s. split; [assumption|].
          replace (Z.to_nat (m u + 1)) with (S (Z.to_nat (m u))) by lia. now apply walk_snoc with u.
        * rewrite Old by assumption. now apply k_walk0.
      + intros s Hsrc. destruct (k_src0 s Hsrc). split; [now right | now rewrite Old].
      + intros v w [<-|Hv] Hvq Hvu Ha; [destruct Hvq; apply in_app_iff; right; now left|].
        destruct (k_done0 v w Hv) as (A & B); [intro; apply Hvq; apply in_app_iff; now left | assumption | assumption |].
        split; [now right | now rewrite !Old].
      + intros w Ha. destruct (k_cur0 w Ha) as [(A & B)|(e' & [<-|He'] & E)].
        * left. split; [now right | rewrite !Old; assumption].
        * left. subst w. fold x. split; [now left|]. rewrite upd_same, Old by assumption. lia.
        * right. now exists e'.
      + intros v Hv. apply in_app_iff in Hv. destruct Hv as [Hv|[<-|[]]]; [right; auto | now left].
      + rewrite map_app, map_upd_notin by assumption. cbn [map]. rewrite upd_same. apply StronglySorted_snoc; [assumption|].
        intros y Hy. apply in_map_iff in Hy. destruct Hy as (v & <- & Hv). auto.
      + intros v Hv. rewrite (Old u) by assumption. apply in_app_iff in Hv. destruct Hv as [Hv|[<-|[]]]; [rewrite Old; auto|].
        rewrite upd_same. lia.
      + intros v [<-|Hv]; rewrite (Old u) by assumption; [rewrite upd_same; lia | rewrite Old; auto].
      + cbn [map]. rewrite upd_same, map_upd_notin by assumption. constructor; [assumption|].
        apply Forall_forall. intros y Hy. apply in_map_iff in Hy. destruct Hy as (v & <- & Hv). specialize (k_max0 v Hv). lia.
  Qed.
  Lemma dist_queue q D t D' : bfs_q g q D t D' -> forall m, dist_inv q D m -> dist_inv [] D' (crun distance_recorder t m).
  Proof.
    induction 1 as [D|u q D t1 qn D1 t2 D' H1 H2 IH]; intros m J; [exact J|].
    change (crun distance_recorder (EStart u :: t1 ++ EFinish u :: t2) m) with (crun distance_recorder (t1 ++ EFinish u :: t2) m).
    rewrite crun_app. change (crun distance_recorder (EFinish u :: t2) ?x) with (crun distance_recorder t2 x).
    apply IH. assert (dist_inv_es u (g_out g u) q D m) as K.
    { destruct J. cbn [map] in j_sorted0. inversion_clear j_sorted0 as [|? ? Sq Fq]. rewrite Forall_forall in Fq.
      split; auto.
      - apply j_in0. now left.
      - intros v w Hv Hq Hu. apply j_done0; [assumption|]. intros [?|?]; congruence.
      - intros v Hv. apply j_in0. now right.
      - intros v Hv. apply Fq. now apply in_map.
      - intros v Hv. now apply (j_max0 u q). }
    apply (dist_edges u _ _ _ _ _ H1 (incl_refl _)) in K. destruct K. split; auto.
    - intros v w Hv Hq Ha. destruct (Nat.eq_dec v u) as [->|n]; [|now apply (k_done0 v w)].
      destruct (k_cur0 w Ha) as [?|(e & [] & _)]. assumption.
    - intros u' q' Eq v Hv. specialize (k_max0 v Hv). specialize (k_min0 u').
      rewrite Eq in k_min0. specialize (k_min0 (or_introl eq_refl)). lia.
  Qed.
  Lemma dist_final D m : dist_inv [] D m -> forall s n v, In s src -> walk g s n v -> In v D /\ m v <= Z.of_nat n.
  Proof.
    intros J s n v Hs. induction 1 as [|n v w H (IH1 & IH2) Ha].
    - destruct (j_src _ _ _ J s Hs) as (A & ->). split; [assumption | lia].
    - destruct (j_done _ _ _ J v w IH1 (fun x => x) Ha). split; [assumption | lia].
  Qed.
  Lemma dist_sources m : NoDup src -> dist_inv src (rev src) (crun distance_recorder (source_events src) m).
  Proof.
    intro N. assert (forall l m, (forall s, In s l -> crun distance_recorder (source_events l) m s = 0)) as Z0.
    { clear. induction l as [|a l IH]; intros m s; [easy|].
      change (crun distance_recorder (source_events (a :: l)) m) with (crun distance_recorder (source_events l) (upd m a 0)).
      destruct (in_dec Nat.eq_dec s l) as [Hi|Hi]; [intros _; now apply IH|].
      intros [<-|?]; [|contradiction]. 
      assert (forall l m, ~ In a l -> crun distance_recorder (source_events l) m a = m a) as L.
      { clear. induction l as [|b l IH]; intros m H; [reflexivity|].
        change (crun distance_recorder (source_events (b :: l)) m) with (crun distance_recorder (source_events l) (upd m b 0)).
        rewrite IH by (intro; apply H; now right). apply upd_other. intros ->. apply H. now left. }
      rewrite L by assumption. apply upd_same. }
    specialize (Z0 src m). set (m' := crun distance_recorder (source_events src) m) in *. clearbody m'.
    assert (forall l, (forall v, In v l -> In v src) -> map m' l = map (fun _ => 0) l) as Em.
    { intros l Hl. apply map_ext_in. auto. }
    split.
    - intros v Hv. rewrite <- in_rev in Hv. rewrite (Z0 v Hv). split; [lia|]. exists v. split; [assumption | constructor].
    - intros s Hs. rewrite <- in_rev. auto.
    - intros v w Hv Hq. rewrite <- in_rev in Hv. contradiction.
    - intros v Hv. now rewrite <- in_rev.
    - rewrite Em by auto. clear. induction src; cbn; constructor; auto. apply Forall_forall. intros x Hx. apply in_map_iff in Hx. destruct Hx as (? & <- & _). lia.
    - intros u q' E v Hv. rewrite <- in_rev in Hv. rewrite (Z0 v Hv), (Z0 u) by (rewrite E; now left). lia.
    - rewrite Em by (intros v Hv; now rewrite in_rev). clear. induction (rev src); cbn; constructor; auto. apply Forall_forall. intros x Hx. apply in_map_iff in Hx. destruct Hx as (? & <- & _). lia.
  Qed.

  Lemma bfs_distance t D' m : NoDup src -> bfs_q g src (rev src) t D' ->
    let m' := crun distance_recorder (source_events src ++ t) m in
    (forall v, In v D' -> 0 <= m' v /\ distance_is g src v (Z.to_nat (m' v))) /\
    StronglySorted Z.le (map m' (src ++ discovers t)).
  Proof.
    intros N H m'. pose proof (dist_queue _ _ _ _ H _ (dist_sources m N)) as J. rewrite <- crun_app in J. fold m' in J.
    split.
    - intros v Hv. destruct (j_walk _ _ _ J v Hv) as (H0 & s & Hs & W). split; [assumption|]. split; [now exists s|].
      intros s' k Hs' Hk. destruct (dist_final _ _ J s' k v Hs' Hk). lia.
    - pose proof (j_order _ _ _ J) as O. destruct (bfs_q_facts _ _ _ _ _ H) as (ED & _).
      rewrite ED, <- rev_app_distr, map_rev in O.
      clear - O. induction (map m' (src ++ discovers t)) as [|a l IH]; constructor.
      + apply IH. cbn in O. now apply StronglySorted_init in O.
      + cbn in O. apply Forall_forall. intros x Hx. 
        assert (forall l (y:Z), StronglySorted Z.ge (l ++ [y]) -> forall x, In x l -> x >= y) as G.
        { clear. induction l as [|b l IH]; intros y Hs x Hx; [easy|]. cbn in Hs. inversion_clear Hs as [|? ? S F].
          destruct Hx as [<-|Hx]; [|now apply IH]. rewrite Forall_forall in F. apply F. apply in_app_iff. right. now left. }
        specialize (G (rev l) a O x). rewrite <- in_rev in G. specialize (G Hx). lia.
  Qed.
End Distance.

Definition distance_visitor : visitor (nat -> Z) := to_visitor default_distance_recorder.
Definition dist_ok (g : graph) (D : list nat) (m : nat -> Z) : Prop :=
  forall v, (In v D -> 0 <= m v) /\ ((v < g_n g)%nat -> ~ In v D -> m v = -1).
Lemma distance_bfs_disciplined g : bfs_disciplined g distance_visitor (dist_ok g).
Proof.
  assert (forall D m u x, 0 <= x -> dist_ok g D m -> dist_ok g (u :: D) (upd m u x)) as A.
  { intros D m u x Hx H v. destruct (H v) as (H1 & H2). unfold upd. destruct (Nat.eqb_spec v u) as [->|n].
    - split; [auto|]. intros _ X. destruct X. now left.
    - split; [intros [?|?]; [congruence | auto] | intros L X; apply H2; [assumption | intro; apply X; now right]]. }
  split; intros; try (apply A; [lia | assumption]); try assumption.
  - destruct (H v) as (H1 & H2). cbn. rewrite negb_true_iff, Z.eqb_neq. split.
    + intro X. destruct (in_dec Nat.eq_dec v D); [assumption|]. now destruct X; apply H2.
    + intro X. specialize (H1 X). lia.
  - apply A; [|assumption]. destruct (H (e_src e)) as (H3 & _). specialize (H3 H0). lia.
Qed.
Lemma distance_init g m : dist_ok g [] (init_all distance_visitor g m).
Proof.
  assert (forall us m, fold_left (fun s u => v_step distance_visitor (EInit u) s) us m = fold_left (fun m u => upd m u (-1)) us m) as E.
  { reflexivity. }
  unfold init_all. rewrite E. intro v. split; [easy|]. intros Hv _. apply fold_upd. now apply in_vertices.
Qed.

Theorem bfs_distance_recorder g src m : wf_graph g -> NoDup src -> (forall v, In v src -> (v < g_n g)%nat) ->
  exists k m', (forall f, (k <= f)%nat -> bfs distance_visitor g always_false f m src = Ok m') /\
    (forall v n, (v < g_n g)%nat -> m' v = Z.of_nat n <-> distance_is g src v n) /\
    (forall v, (v < g_n g)%nat -> ~ (exists s, In s src /\ reach g s v) -> m' v = -1).
Proof.
  intros wf N L. destruct (bfs_q_exists g wf src (rev src)) as (t & D' & H).
  destruct (bfs_run distance_visitor g (dist_ok g) wf (distance_bfs_disciplined g) src t D' m H N L (distance_init g m)) as (RE & k & E).
  eexists k, _. split; [exact E|].
  pose proof (bfs_distance g wf src t D' (init_all distance_visitor g m) N H) as (B & _). cbv zeta in B.
  assert (run distance_visitor (source_events src ++ t) (init_all distance_visitor g m) =
    crun distance_recorder (source_events src ++ t) (init_all distance_visitor g m)) as Er.
  { unfold distance_visitor. rewrite run_to_visitor. apply vertex_initializer_run.
    apply Forall_app. split; [apply source_no_init | now apply (bfs_q_no_init _ _ _ _ _ H)]. }
  rewrite Er in *. set (m' := crun _ _ _) in *. clearbody m'.
  assert (forall v, In v D' <-> exists s, In s src /\ reach g s v) as Rd by (intro v; now apply (bfs_q_exact g src t)).
  split.
  - intros v n Hv. split.
    + intro Em. assert (In v D') as Hi.
      { destruct (in_dec Nat.eq_dec v D'); [assumption|]. destruct (RE v) as (_ & X). rewrite X in Em by assumption. lia. }
      destruct (B v Hi) as (_ & X). rewrite Em, Nat2Z.id in X. exact X.
    + intros ((s & Hs & W) & M). assert (In v D') as Hi.
      { apply Rd. exists s. split; [assumption | now apply walk_reach in W]. }
      destruct (B v Hi) as (H0 & (s' & Hs' & W') & M').
      specialize (M s' _ Hs' W'). specialize (M' s _ Hs W). lia.
  - intros v Hv Hn. destruct (RE v) as (_ & X). apply X; [assumption|]. now rewrite Rd.
Qed.

(** ** Predecessors *)
(** Of a breadth-first search: the chain is as long as the distance. *)
Definition pred_inv (g : graph) (src D : list nat) (m : nat -> Z) (p : nat -> option nat) : Prop :=
  forall v, In v D -> (In v src /\ p v = Some v /\ m v = 0) \/
    exists x, In x D /\ p v = Some x /\ arc g x v /\ 0 <= m x /\ m v = m x + 1.
Lemma pred_inv_chain g src D m p : pred_inv g src D m p ->
  forall n v, In v D -> m v = Z.of_nat n -> exists r, In r src /\ pred_chain g p r n v.
Proof.
  intro H. induction n as [|n IH]; intros v Hv E; destruct (H v Hv) as [(A & B & C)|(x & A & B & C & C' & F)].
  - exists v. split; [assumption | now constructor].
  - lia.
  - lia.
  - destruct (IH x A) as (r & Hr & P); [lia|]. exists r. split; [assumption | econstructor; eauto].
Qed.
Lemma pred_inv_add g src D m p e : pred_inv g src D m p -> In (e_src e) D -> ~ In (e_tgt e) D -> arc g (e_src e) (e_tgt e) ->
  (forall v, In v D -> 0 <= m v) ->
  pred_inv g src (e_tgt e :: D) (upd m (e_tgt e) (m (e_src e) + 1)) (upd p (e_tgt e) (Some (e_src e))).
Proof.
  intros H Hs Ht Ha Hm v [<-|Hv].
  - right. exists (e_src e). rewrite !upd_same. rewrite (upd_other m) by (intros X; apply Ht; now rewrite <- X). repeat split; auto. now right.
  - assert (v <> e_tgt e) by (intros ->; contradiction). rewrite !(upd_other _ (e_tgt e)) by assumption.
    destruct (H v Hv) as [?|(x & A & B & C & C' & F)]; [now left|]. right. exists x.
    rewrite (upd_other m) by (intros ->; contradiction). repeat split; auto. now right.
Qed.
Lemma pred_es g src u es D t qn D' : wf_graph g -> bfs_es es D t qn D' -> incl es (g_out g u) -> In u D -> forall m p,
  (forall v, In v D -> 0 <= m v) -> pred_inv g src D m p ->
  (forall v, In v D' -> 0 <= crun distance_recorder t m v) /\
  pred_inv g src D' (crun distance_recorder t m) (crun predecessor_recorder t p).
Proof.
  intros wf. induction 1 as [D|e es D t qn D' Hi H IH|e es D t qn D' Hn H IH]; intros Hs Hu m p Hm HP.
  - now split.
  - apply (IH ltac:(intros x Hx; apply Hs; now right) Hu m p Hm HP).
  - assert (In e (g_out g u)) as He by (apply Hs; now left). destruct (wf _ _ He) as (E1 & E2).
    apply (IH ltac:(intros x Hx; apply Hs; now right) (or_intror Hu) (upd m (e_tgt e) (m (e_src e) + 1)) (upd p (e_tgt e) (Some (e_src e)))).
    + intros v [<-|Hv]; [rewrite upd_same, E1; specialize (Hm u Hu); lia|].
      rewrite upd_other by (intros ->; contradiction). auto.
    + apply pred_inv_add; auto; [now rewrite E1|]. exists e. rewrite E1. auto.
Qed.
Lemma pred_q g src q D t D' : wf_graph g -> bfs_q g q D t D' -> (forall v, In v q -> In v D) -> forall m p,
  (forall v, In v D -> 0 <= m v) -> pred_inv g src D m p ->
  pred_inv g src D' (crun distance_recorder t m) (crun predecessor_recorder t p).
Proof.
  intros wf. induction 1 as [D|u q D t1 qn D1 t2 D' H1 H2 IH]; intros Hq m p Hm HP; [exact HP|].
  change (pred_inv g src D' (crun distance_recorder (t1 ++ EFinish u :: t2) m) (crun predecessor_recorder (t1 ++ EFinish u :: t2) p)).
  rewrite !crun_app.
  destruct (pred_es g src u _ _ _ _ _ wf H1 (incl_refl _) (Hq u (or_introl eq_refl)) m p Hm HP) as (A & B).
  destruct (bfs_es_facts _ _ _ _ _ H1) as (A1 & _).
  apply (IH ltac:(intros v Hv; rewrite A1, in_app_iff, <- in_rev; apply in_app_iff in Hv; destruct Hv; [right; apply Hq; now right | tauto])
    (crun distance_recorder t1 m) (crun predecessor_recorder t1 p) A B).
Qed.

Definition pred_visitor : visitor (nat -> option nat) := to_visitor default_predecessor_recorder.
Definition pred_ok (g : graph) (D : list nat) (p : nat -> option nat) : Prop :=
  forall v, (v < g_n g)%nat -> p v <> None <-> In v D.
Lemma pred_ok_upd g D p u x : pred_ok g D p -> pred_ok g (u :: D) (upd p u (Some x)).
Proof.
  intros H v Hv. unfold upd. destruct (Nat.eqb_spec v u) as [->|n]; [split; [now left | easy]|].
  rewrite (H v Hv). split; [now right | intros [?|?]; [congruence | assumption]].
Qed.
Lemma pred_ok_disc g D p v : pred_ok g D p -> (v < g_n g)%nat -> v_disc pred_visitor p v = true <-> In v D.
Proof. intros H Hv. rewrite <- (H v Hv). cbn. now destruct (p v). Qed.
Lemma pred_bfs_disciplined g : bfs_disciplined g pred_visitor (pred_ok g).
Proof. split; intros; try (apply pred_ok_upd; assumption); try assumption. now apply (pred_ok_disc g). Qed.
Lemma pred_disciplined g : disciplined g pred_visitor (pred_ok g).
Proof. split; intros; try (apply pred_ok_upd; assumption); try assumption. now apply (pred_ok_disc g). Qed.
Lemma pred_init g p : pred_ok g [] (init_all pred_visitor g p).
Proof.
  assert (forall us p, fold_left (fun s u => v_step pred_visitor (EInit u) s) us p = fold_left (fun m u => upd m u None) us p) as E by reflexivity.
  unfold init_all. rewrite E. intros v Hv. rewrite fold_upd by now apply in_vertices. easy.
Qed.

Lemma none_iff (o : option nat) (P : Prop) : (o <> None <-> P) -> o = None <-> ~ P.
Proof. destruct o; intros (A & B); split; intro X; try easy; [destruct X; now apply A | intro p; now apply B]. Qed.
Theorem bfs_predecessor_recorder g src p : wf_graph g -> NoDup src -> (forall v, In v src -> (v < g_n g)%nat) ->
  exists k p', (forall f, (k <= f)%nat -> bfs pred_visitor g always_false f p src = Ok p') /\
    (forall v, (v < g_n g)%nat -> (p' v = None <-> ~ exists s, In s src /\ reach g s v)) /\
    (forall v s, In s src -> reach g s v -> exists r n, In r src /\ pred_chain g p' r n v /\ distance_is g src v n).
Proof.
  intros wf N L. destruct (bfs_q_exists g wf src (rev src)) as (t & D' & H).
  destruct (bfs_run pred_visitor g (pred_ok g) wf (pred_bfs_disciplined g) src t D' p H N L (pred_init g p)) as (RE & k & E).
  eexists k, _. split; [exact E|].
  assert (forall v, In v D' <-> exists s, In s src /\ reach g s v) as Rd by (intro v; now apply (bfs_q_exact g src t)).
  split.
  - intros v Hv. rewrite <- Rd. apply none_iff. exact (RE v Hv).
  - intros v s Hs R. assert (In v D') as Hi by (apply Rd; now exists s).
    destruct (bfs_distance g wf src t D' (fun _ => 0) N H) as (B & _). cbv zeta in B. destruct (B v Hi) as (H0 & Ds).
    assert (run pred_visitor (source_events src ++ t) (init_all pred_visitor g p) =
      crun predecessor_recorder (source_events src ++ t) (init_all pred_visitor g p)) as Er.
    { unfold pred_visitor. rewrite run_to_visitor. apply vertex_initializer_run.
      apply Forall_app. split; [apply source_no_init | now apply (bfs_q_no_init _ _ _ _ _ H)]. }
    rewrite Er. set (p0 := init_all pred_visitor g p).
    assert (pred_inv g src (rev src) (crun distance_recorder (source_events src) (fun _ => 0)) (crun predecessor_recorder (source_events src) p0)) as P0.
    { pose proof (j_src _ _ _ _ _ (dist_sources g src (fun _ => 0) N)) as Z0.
      intros x Hx. rewrite <- in_rev in Hx. left. split; [assumption|]. split; [|now apply Z0].
      clearbody p0. clear - Hx. revert p0 Hx. induction src as [|a l IH]; intros p0 Hx; [easy|].
      change (crun predecessor_recorder (source_events l) (upd p0 a (Some a)) x = Some x).
      destruct (in_dec Nat.eq_dec x l) as [Hi|Hi]; [now apply IH|]. destruct Hx as [->|?]; [|contradiction].
      assert (forall l p, ~ In x l -> crun predecessor_recorder (source_events l) p x = p x) as G.
      { clear. induction l as [|b l IH]; intros p H; [reflexivity|].
        change (crun predecessor_recorder (source_events l) (upd p b (Some b)) x = p x).
        rewrite IH by (intro; apply H; now right). apply upd_other. intros ->. apply H. now left. }
      rewrite G by assumption. apply upd_same. }
    assert (pred_inv g src D' (crun distance_recorder (source_events src ++ t) (fun _ => 0)) (crun predecessor_recorder (source_events src ++ t) p0)) as P.
    { rewrite !crun_app. apply (pred_q g src src (rev src) t D' wf H); auto.
      - intros x Hx. now rewrite <- in_rev.
      - intros x Hx. now apply (j_walk _ _ _ _ _ (dist_sources g src (fun _ => 0) N)). }
    destruct (pred_inv_chain _ _ _ _ _ P (Z.to_nat (crun distance_recorder (source_events src ++ t) (fun _ => 0) v)) v Hi) as (r & Hr & C); [lia|].
    exists r. eexists. split; [assumption|]. split; [exact C | exact Ds].
Qed.

Theorem dfs_predecessor_recorder g u p : wf_graph g -> (u < g_n g)%nat ->
  exists k p', (forall f, (k <= f)%nat -> dfs_from pred_visitor g always_false f p u = Ok p') /\
    (forall v, (v < g_n g)%nat -> (p' v = None <-> ~ reach g u v)) /\
    (forall v, reach g u v -> exists n, pred_chain g p' u n v).
Proof.
  intros wf Hu. destruct (dfs_from_run pred_visitor g (pred_ok g) wf (pred_disciplined g) p u (pred_init g p) Hu)
    as (t & D' & Hv & R & k & E). cbv zeta in E.
  eexists k, _. split; [exact E|].
  assert (forall v, In v D' <-> reach g u v) as Rd.
  { intro v. rewrite (visit_in _ _ _ _ _ _ Hv), (white_path g u [] t D' v Hv), reach_avoid_nil by easy. cbn. tauto. }
  split.
  - intros v Lv. rewrite <- Rd. apply none_iff. exact (R v Lv).
  - set (s0 := init_all pred_visitor g p).
    assert (run pred_visitor (ESearchStart u :: t ++ [ESearchFinish (Some u)]) s0 = run pred_visitor t (upd s0 u (Some u))) as ->.
    { change (run pred_visitor (t ++ [ESearchFinish (Some u)]) (upd s0 u (Some u)) = run pred_visitor t (upd s0 u (Some u))).
      rewrite run_app. reflexivity. }
    (* chains inside of the discovered vertices *)
    set (J := fun D (p : nat -> option nat) => In u D /\ p u = Some u /\ forall v, In v D ->
       exists n, (fix ch n v := match n with O => v = u | S n => exists x, In x D /\ p v = Some x /\ arc g x v /\ ch n x end) n v).
    assert (J D' (run pred_visitor t (upd s0 u (Some u)))) as HJ.
    { refine (proj1 (visit_scan_stable pred_visitor g J wf _ _ _ _) u [] t D' Hv _ _); try (intros; assumption).
      - intros D q e (A & B & C) He Hs Ht Hn. assert (u <> e_tgt e) as Hne by (intros X; apply Hn; now rewrite <- X).
        change (J (e_tgt e :: D) (upd q (e_tgt e) (Some (e_src e)))).
        assert (forall n v, In v D ->
          (fix ch n v := match n with O => v = u | S n => exists x, In x D /\ q v = Some x /\ arc g x v /\ ch n x end) n v ->
          (fix ch n v := match n with O => v = u | S n => exists x, In x (e_tgt e :: D) /\ upd q (e_tgt e) (Some (e_src e)) v = Some x /\ arc g x v /\ ch n x end) n v) as M.
        { induction n as [|n IH]; intros v Hv'; [easy|]. intros (x & Hx & Eq & Ha & Hc). exists x.
          split; [now right|]. rewrite upd_other by (intros ->; contradiction). split; [assumption|]. split; [assumption|]. now apply IH. }
        split; [now right|]. split; [now rewrite upd_other|]. intros v [<-|Hv'].
        + destruct (C (e_src e) Hs) as (n & Hc). exists (S n). exists (e_src e). split; [now right|]. rewrite upd_same.
          split; [reflexivity|]. split; [now exists e|]. now apply M.
        + destruct (C v Hv') as (n & Hc). exists n. now apply M.
      - split; [now left|]. split; [apply upd_same|]. intros v [<-|[]]. exists 0%nat. reflexivity. }
    destruct HJ as (Ju & Jr & Jc). intros v Rv. apply Rd in Rv. destruct (Jc v Rv) as (n & Hc). exists n.
    clear - Jr Hc. revert v Hc. induction n as [|n IH]; intros v Hc; [subst; now constructor|].
    destruct Hc as (x & _ & A & B & C). econstructor; eauto.
Qed.
