(** Searches with a terminator. *)
From Coq Require Import ZArith List Bool PeanoNat Lia Permutation Sorted.
From Verif Require Import Outcome GraphModel DfsProofs DfsResults BfsProofs.
Import ListNotations.

(** ** Stopping at the first event about a terminator *)
Section Cut.
  Variable sel : event -> option nat.
  Variable term : nat -> bool.
  Fixpoint cut (t : list event) : list event :=
    match t with
    | [] => []
    | ev :: t => ev :: match sel ev with
                       | Some x => if term x then [ESearchFinish (Some x)] else cut t
                       | None => cut t
                       end
    end.
  Fixpoint hits (t : list event) : bool :=
    match t with [] => false | ev :: t => match sel ev with Some x => term x || hits t | None => hits t end end.
  Lemma hits_app a b : hits (a ++ b) = hits a || hits b.
  Proof. induction a as [|ev a IH]; cbn; [easy|]. rewrite IH. destruct (sel ev); [now rewrite orb_assoc | easy]. Qed.
  Lemma cut_app a b : cut (a ++ b) = if hits a then cut a else a ++ cut b.
  Proof.
    induction a as [|ev a IH]; cbn; [easy|]. destruct (sel ev) as [x|]; [destruct (term x); cbn; [easy|]|]; rewrite IH; destruct (hits a); easy.
  Qed.
  Lemma cut_none t : hits t = false -> cut t = t.
  Proof. intros H. induction t as [|ev t IH]; [easy|]. cbn in *. destruct (sel ev) as [x|]; [apply orb_false_iff in H as [-> H]|]; now rewrite IH. Qed.
  Lemma cut_found t : hits t = true -> exists a ev x b, t = a ++ ev :: b /\ sel ev = Some x /\ term x = true /\ hits a = false /\
    cut t = a ++ [ev; ESearchFinish (Some x)].
  Proof.
    induction t as [|ev t IH]; [easy|]. cbn. destruct (sel ev) as [x|] eqn:E.
    - destruct (term x) eqn:T; cbn.
      + intros _. exists [], ev, x, t. repeat split; auto.
      + intros (a & ev' & y & b & -> & S & Ty & H & C)%IH. exists (ev :: a), ev', y, b. cbn. rewrite E, T, H, C. repeat split; auto.
    - intros (a & ev' & y & b & -> & S & Ty & H & C)%IH. exists (ev :: a), ev', y, b. cbn. rewrite E, H, C. repeat split; auto.
  Qed.
  Lemma hits_spec t : hits t = true <-> exists ev x, In ev t /\ sel ev = Some x /\ term x = true.
  Proof.
    induction t as [|ev t IH]; cbn; [split; [easy | now intros (? & ? & [] & _)]|]. destruct (sel ev) as [x|] eqn:E.
    - rewrite orb_true_iff, IH. split.
      + intros [T | (ev' & y & I & S & T)]; [exists ev, x | exists ev', y]; auto.
      + intros (ev' & y & [<- | I] & S & T); [left; congruence | right; eauto].
    - rewrite IH. split.
      + intros (ev' & y & I & S & T). exists ev', y. auto.
      + intros (ev' & y & [<- | I] & S & T); [congruence | eauto].
  Qed.
End Cut.
Definition discovered (ev : event) : option nat := match ev with EDiscover u => Some u | _ => None end.
Definition started (ev : event) : option nat := match ev with EStart u => Some u | _ => None end.
Lemma in_discovers t u : In u (discovers t) <-> In (EDiscover u) t.
Proof.
  unfold discovers. rewrite in_flat_map. split.
  - intros (ev & I & H). destruct ev; cbn in H; try easy. destruct H as [-> | []]. exact I.
  - intros I. exists (EDiscover u). split; [exact I | now left].
Qed.
Lemma in_starts t u : In u (starts t) <-> In (EStart u) t.
Proof.
  unfold starts. rewrite in_flat_map. split.
  - intros (ev & I & H). destruct ev; cbn in H; try easy. destruct H as [-> | []]. exact I.
  - intros I. exists (EStart u). split; [exact I | now left].
Qed.
Lemma hits_discovered term t : hits discovered term t = true <-> exists x, In x (discovers t) /\ term x = true.
Proof.
  rewrite hits_spec. split.
  - intros (ev & x & I & S & T). destruct ev; try discriminate S. injection S as ->. exists x. now rewrite in_discovers.
  - intros (x & I & T). exists (EDiscover x), x. rewrite in_discovers in I. auto.
Qed.
Lemma hits_started term t : hits started term t = true <-> exists x, In x (starts t) /\ term x = true.
Proof.
  rewrite hits_spec. split.
  - intros (ev & x & I & S & T). destruct ev; try discriminate S. injection S as ->. exists x. now rewrite in_starts.
  - intros (x & I & T). exists (EStart x), x. rewrite in_starts in I. auto.
Qed.

(** ** Breadth-first search *)
Section Bfs.
  Context {S : Type}.
  Variable V : visitor S.
  Variable g : graph.
  Variable R : list nat -> S -> Prop.
  Hypothesis wf : wf_graph g.
  Hypothesis disc : bfs_disciplined g V R.
  Variable term : nat -> bool.
  Local Notation cutd := (cut discovered term).
  Local Notation hit := (hits discovered term).

  Lemma edges_term u es D t qn D' : bfs_es es D t qn D' -> incl es (g_out g u) -> In u D -> forall s q, R D s ->
    bfs_edges V term s q es = if hit t then inr (run V (cutd t) s) else inl (run V t s, q ++ qn).
  Proof.
    induction 1 as [D|e es D t qn D' Hi H IH|e es D t qn D' Hn H IH]; intros Hs Hu s q HR.
    - cbn. now rewrite app_nil_r.
    - assert (In e (g_out g u)) as He by (apply Hs; now left). destruct (wf _ _ He) as (E1 & E2).
      cbn [bfs_edges]. rewrite (proj2 (b_disc _ _ _ disc D s (e_tgt e) HR E2) Hi).
      apply (IH ltac:(intros x Hx; apply Hs; now right) Hu (v_step V (ENonTree e) s)).
      apply (b_non _ _ _ disc); [assumption | now rewrite E1 | assumption].
    - assert (In e (g_out g u)) as He by (apply Hs; now left). destruct (wf _ _ He) as (E1 & E2).
      cbn [bfs_edges]. assert (v_disc V s (e_tgt e) = false) as ->.
      { apply not_true_iff_false. now rewrite (b_disc _ _ _ disc D s (e_tgt e) HR E2). }
      unfold bfs_discover. cbn [hits cut discovered]. destruct (term (e_tgt e)); [reflexivity|]. cbn [orb].
      rewrite (IH ltac:(intros x Hx; apply Hs; now right) (or_intror Hu)
        (v_step V (ETreeFinish e) (v_step V (EDiscover (e_tgt e)) (v_step V (ETreeStart e) s))) (q ++ [e_tgt e])).
      { rewrite <- app_assoc. reflexivity. }
      apply (b_tree _ _ _ disc); [assumption | now rewrite E1 | assumption | assumption].
  Qed.
  Lemma loop_term q D t D' : bfs_q g q D t D' -> (forall v, In v q -> In v D) -> forall s, R D s ->
    exists k, forall f, k <= f -> bfs_loop V g term f s q = Ok (run V (cutd t) s).
  Proof.
    induction 1 as [D|u q D t1 qn D1 t2 D' H1 H2 IH]; intros Hq s HR.
    - exists 0. intros f _. now destruct f.
    - assert (In u D) as Hu by (apply Hq; now left).
      assert (RS : R D (v_step V (EStart u) s)) by now apply (b_start _ _ _ disc).
      destruct (bfs_edges_run V g R wf disc u (g_out g u) D t1 qn D1 H1 (incl_refl _) Hu (v_step V (EStart u) s) q RS) as (_ & B).
      pose proof (edges_term u (g_out g u) D t1 qn D1 H1 (incl_refl _) Hu (v_step V (EStart u) s) q RS) as A.
      destruct (bfs_es_facts _ _ _ _ _ H1) as (A1 & _).
      assert (forall v, In v D -> In v D1) as Id by (intros; rewrite A1; apply in_app_iff; now right).
      destruct IH with (s := v_step V (EFinish u) (run V t1 (v_step V (EStart u) s))) as (k & E).
      + intros v Hv. apply in_app_iff in Hv. destruct Hv as [Hv|Hv]; [apply Id, Hq; now right|].
        rewrite A1. apply in_app_iff. left. now rewrite <- in_rev.
      + apply (b_fin _ _ _ disc); auto.
      + exists (1 + k). intros [|f] Hf; [lia|]. cbn [bfs_loop]. rewrite A.
        change (cutd (EStart u :: t1 ++ EFinish u :: t2)) with (EStart u :: cutd (t1 ++ EFinish u :: t2)). rewrite cut_app.
        destruct (hit t1); [reflexivity|]. rewrite E by lia. f_equal.
        change (run V (cutd t2) (v_step V (EFinish u) (run V t1 (v_step V (EStart u) s))) = run V (t1 ++ EFinish u :: cutd t2) (v_step V (EStart u) s)).
        now rewrite run_app.
  Qed.
  Lemma sources_term src : forall D s q, NoDup src -> (forall v, In v src -> v < g_n g /\ ~ In v D) -> R D s ->
    bfs_sources V term s q src = if hit (source_events src) then inr (run V (cutd (source_events src)) s)
                                 else inl (run V (source_events src) s, q ++ src).
  Proof.
    induction src as [|u src IH]; intros D s q N L HR; [cbn; now rewrite app_nil_r|].
    inversion_clear N as [|? ? Hu N']. cbn [bfs_sources]. unfold bfs_discover.
    change (source_events (u :: src)) with (ESearchStart u :: EDiscover u :: source_events src). cbn [hits cut discovered].
    destruct (term u); [reflexivity|]. cbn [orb].
    destruct (L u (or_introl eq_refl)) as (Lu & Du).
    rewrite (IH (u :: D) (v_step V (EDiscover u) (v_step V (ESearchStart u) s)) (q ++ [u]) N').
    - rewrite <- app_assoc. reflexivity.
    - intros v Hv. destruct (L v (or_intror Hv)). split; [assumption|]. intros [->|?]; contradiction.
    - now apply (b_root _ _ _ disc).
  Qed.
  Theorem bfs_term src t D' s : bfs_q g src (rev src) t D' -> NoDup src -> (forall v, In v src -> v < g_n g) -> R [] (init_all V g s) ->
    exists k, forall f, k <= f -> bfs V g term f s src = Ok (run V (cutd (source_events src ++ t)) (init_all V g s)).
  Proof.
    intros H N L HR. destruct (bfs_sources_run V g R disc src [] (init_all V g s) [] N) as (_ & B); [auto | assumption |].
    rewrite app_nil_r in B.
    destruct (loop_term _ _ _ _ H (fun v Hv => proj1 (in_rev src v) Hv) _ B) as (k & E).
    exists k. intros f Hf. unfold bfs. rewrite (sources_term src [] (init_all V g s) [] N); [|auto | assumption]. rewrite cut_app.
    destruct (hit (source_events src)); [reflexivity|]. cbn [app]. rewrite E by assumption. now rewrite run_app.
  Qed.
End Bfs.

(** ** Depth-first search *)
Section Dfs.
  Context {S : Type}.
  Variable V : visitor S.
  Variable g : graph.
  Variable R : list nat -> S -> Prop.
  Hypothesis wf : wf_graph g.
  Hypothesis disc : disciplined g V R.
  Variable term : nat -> bool.
  Local Notation cuts := (cut started term).
  Local Notation hit := (hits started term).
  (** The vertex at which the search stops. *)
  Fixpoint first_hit (t : list event) (d : nat) : nat :=
    match t with [] => d | ev :: t => match started ev with Some x => if term x then x else first_hit t d | None => first_hit t d end end.
  Lemma first_hit_app a b d : first_hit (a ++ b) d = if hit a then first_hit a d else first_hit b d.
  Proof. induction a as [|ev a IH]; cbn; [easy|]. destruct (started ev) as [x|]; [destruct (term x); cbn; [easy|]|]; apply IH. Qed.
  (** The events without the end of the search. *)
  Fixpoint stop (t : list event) : list event :=
    match t with
    | [] => []
    | ev :: t => ev :: match started ev with Some x => if term x then [] else stop t | None => stop t end
    end.
  Lemma stop_app a b : stop (a ++ b) = if hit a then stop a else a ++ stop b.
  Proof.
    induction a as [|ev a IH]; cbn; [easy|]. destruct (started ev) as [x|]; [destruct (term x); cbn; [easy|]|]; rewrite IH; destruct (hit a); easy.
  Qed.
  Lemma stop_none t : hit t = false -> stop t = t.
  Proof. intros H. induction t as [|ev t IH]; [easy|]. cbn in *. destruct (started ev) as [x|]; [apply orb_false_iff in H as [-> H]|]; now rewrite IH. Qed.
  Lemma cut_stop t d : hit t = true -> cuts t = stop t ++ [ESearchFinish (Some (first_hit t d))].
  Proof.
    induction t as [|ev t IH]; [easy|]. cbn. destruct (started ev) as [x|]; [destruct (term x); cbn; [easy|]|]; intros H; now rewrite IH.
  Qed.
  Lemma stop_scan :
    (forall u D t D', visit g u D t D' -> forall s, u < g_n g -> term u = false ->
       R (u :: D) (v_step V (EStart u) (v_step V (EDiscover u) s)) ->
       exists k, forall m stack d, dfs_loop V g term (k + m) (v_step V (EStart u) (v_step V (EDiscover u) s)) u (g_out g u) stack =
         if hit t then Ok (run V (stop t) s, first_hit t d) else after V g term m (run V t s) u stack) /\
    (forall u es D t D', scan_es g u es D t D' -> forall s, R D s -> In u D -> incl es (g_out g u) ->
       exists k, forall m stack d, dfs_loop V g term (k + m) s u es stack =
         if hit t then Ok (run V (stop t) s, first_hit t d) else after V g term m (run V t s) u stack).
  Proof.
    apply visit_scan_ind.
    - intros u D t D' _ IH s Hu Tu H. destruct (IH _ H) as (k & B); [now left | apply incl_refl |].
      exists k. intros m stack d. rewrite (B m stack d). cbn [hits started stop first_hit]. rewrite Tu. reflexivity.
    - intros u D s H Hu _. exists 1. intros m stack d. cbn. now destruct stack as [|[? [|]]].
    - intros u e es D t D' Hi _ IH s H Hu Hs.
      assert (In e (g_out g u)) as He by (apply Hs; now left). destruct (wf _ _ He) as (E1 & E2).
      destruct (IH (v_step V (ENonTree e) s)) as (k & B).
      + apply (d_non _ _ _ disc); [assumption | now rewrite E1 | assumption].
      + assumption.
      + intros x Hx. apply Hs. now right.
      + exists (1 + k). intros m stack d. cbn [Nat.add dfs_loop].
        rewrite (proj2 (d_disc _ _ _ disc D s (e_tgt e) H E2) Hi). apply B.
    - intros u e es D t1 D1 t2 D' Hn H1 IH1 H2 IH2 s H Hu Hs.
      assert (In e (g_out g u)) as He by (apply Hs; now left). destruct (wf _ _ He) as (E1 & E2).
      assert (RT : R (e_tgt e :: D) (v_step V (EStart (e_tgt e)) (v_step V (EDiscover (e_tgt e)) (v_step V (ETreeStart e) s)))).
      { apply (d_tree _ _ _ disc); [assumption | now rewrite E1 | assumption | assumption]. }
      assert (v_disc V s (e_tgt e) = false) as Ed.
      { apply not_true_iff_false. now rewrite (d_disc _ _ _ disc D s (e_tgt e) H E2). }
      change (hit (ETreeStart e :: t1 ++ ETreeFinish e :: t2)) with (hit (t1 ++ ETreeFinish e :: t2)).
      change (stop (ETreeStart e :: t1 ++ ETreeFinish e :: t2)) with (ETreeStart e :: stop (t1 ++ ETreeFinish e :: t2)).
      rewrite hits_app, stop_app.
      destruct (term (e_tgt e)) eqn:Te.
      + assert (Q : exists t', t1 = EDiscover (e_tgt e) :: EStart (e_tgt e) :: t') by (inversion H1; eauto). destruct Q as (t' & ->).
        exists 1. intros m stack d. cbn [Nat.add dfs_loop]. rewrite Ed, Te. cbn [hits started orb stop first_hit app]. rewrite Te. reflexivity.
      + destruct (IH1 (v_step V (ETreeStart e) s) E2 eq_refl RT) as (k1 & B1).
        destruct (proj1 (visit_scan_run V g R wf disc) _ _ _ _ H1 (v_step V (ETreeStart e) s) E2 RT) as (A1 & _).
        destruct (IH2 (v_step V (ETreeFinish e) (run V t1 (v_step V (ETreeStart e) s)))) as (k2 & B2).
        { apply (d_tfin _ _ _ disc); [assumption | |].
          - rewrite E1. now apply (visit_incl _ _ _ _ _ H1).
          - apply (visit_in _ _ _ _ _ _ H1). left. now apply (visit_discovers_root _ _ _ _ _ H1). }
        { now apply (visit_incl _ _ _ _ _ H1). }
        { intros x Hx. apply Hs. now right. }
        exists (1 + (k1 + k2)). intros m stack d. cbn [Nat.add dfs_loop]. rewrite Ed, Te. rewrite <- Nat.add_assoc, (B1 (k2 + m) _ d).
        change (first_hit (ETreeStart e :: t1 ++ ETreeFinish e :: t2) d) with (first_hit (t1 ++ ETreeFinish e :: t2) d). rewrite first_hit_app.
        destruct (hit t1); [reflexivity|]. cbn [after orb]. rewrite (B2 m stack d). cbn [hits started first_hit].
        destruct (hit t2).
        * f_equal. f_equal. change (run V (stop t2) (v_step V (ETreeFinish e) (run V t1 (v_step V (ETreeStart e) s))) = run V (t1 ++ ETreeFinish e :: stop t2) (v_step V (ETreeStart e) s)).
          now rewrite run_app.
        * f_equal. change (run V t2 (v_step V (ETreeFinish e) (run V t1 (v_step V (ETreeStart e) s))) = run V (t1 ++ ETreeFinish e :: t2) (v_step V (ETreeStart e) s)).
          now rewrite run_app.
  Qed.
  Theorem visit_term u D t D' s : visit g u D t D' -> u < g_n g -> ~ In u D -> R D s ->
    exists k, forall f, k <= f -> dfs_visit V g term f s u = Ok (run V (cuts (ESearchStart u :: t ++ [ESearchFinish (Some u)])) s).
  Proof.
    intros H Hu Hn HR.
    assert (RS : R (u :: D) (v_step V (EStart u) (v_step V (EDiscover u) (v_step V (ESearchStart u) s)))) by now apply (d_root _ _ _ disc).
    change (cuts (ESearchStart u :: t ++ [ESearchFinish (Some u)])) with (ESearchStart u :: cuts (t ++ [ESearchFinish (Some u)])).
    rewrite cut_app. unfold dfs_visit. cbv zeta. destruct (term u) eqn:Tu.
    - assert (Q : exists t', t = EDiscover u :: EStart u :: t') by (inversion H; eauto). destruct Q as (t' & ->).
      exists 0. intros f _. cbn. rewrite Tu. reflexivity.
    - destruct (proj1 stop_scan _ _ _ _ H (v_step V (ESearchStart u) s) Hu Tu RS) as (k & B).
      exists k. intros f Hf. replace f with (k + (f - k)) by lia. rewrite (B (f - k) [] 0).
      destruct (hit t) eqn:Ht; cbn [bind after].
      + rewrite (cut_stop t 0 Ht).
        change (Ok (v_step V (ESearchFinish (Some (first_hit t 0))) (run V (stop t) (v_step V (ESearchStart u) s))) =
          Ok (run V (stop t ++ [ESearchFinish (Some (first_hit t 0))]) (v_step V (ESearchStart u) s))). now rewrite run_app.
      + change (Ok (v_step V (ESearchFinish (Some u)) (run V t (v_step V (ESearchStart u) s))) =
          Ok (run V (t ++ [ESearchFinish (Some u)]) (v_step V (ESearchStart u) s))). now rewrite run_app.
  Qed.
End Dfs.

(** ** What is found *)
Lemma source_discovers src : discovers (source_events src) = src.
Proof. induction src as [|a l IH]; [easy|]. change (a :: discovers (source_events l) = a :: l). now rewrite IH. Qed.
Lemma bfs_discovers_nodup g src t D' : NoDup src -> bfs_q g src (rev src) t D' -> NoDup (discovers (source_events src ++ t)).
Proof.
  intros N H. destruct (bfs_q_facts _ _ _ _ _ H) as (_ & _ & _ & _ & N' & F). rewrite discovers_app, source_discovers.
  apply NoDup_app_intro; auto. intros v Hv Hv2. apply (F v Hv2). now rewrite <- in_rev.
Qed.
Lemma bfs_discovers_reach g src t D' v : bfs_q g src (rev src) t D' ->
  In v (discovers (source_events src ++ t)) <-> exists s, In s src /\ reach g s v.
Proof.
  intros H. rewrite <- (bfs_q_exact g src t D' v H). destruct (bfs_q_facts _ _ _ _ _ H) as (-> & _).
  rewrite discovers_app, source_discovers, !in_app_iff, <- !in_rev. tauto.
Qed.
Lemma bfs_order g src t D' : wf_graph g -> NoDup src -> bfs_q g src (rev src) t D' ->
  forall a v b w c dv dw, discovers (source_events src ++ t) = a ++ v :: b ++ w :: c ->
  distance_is g src v dv -> distance_is g src w dw -> dv <= dw.
Proof.
  intros wf N H. rewrite discovers_app, source_discovers. intros a v b w c dv dw Ed Dv Dw.
  destruct (bfs_distance g wf src t D' (fun _ => 0%Z) N H) as (B & O). cbv zeta in B, O.
  set (m := crun distance_recorder _ _) in *. rewrite Ed in O.
  assert (forall x, In x (src ++ discovers t) -> In x D') as Hi.
  { intros x Hx. destruct (bfs_q_facts _ _ _ _ _ H) as (-> & _). rewrite in_app_iff, <- !in_rev. apply in_app_iff in Hx. tauto. }
  assert (forall x d, In x (src ++ discovers t) -> distance_is g src x d -> m x = Z.of_nat d) as Em.
  { intros x d Hx ((s & Hs & W) & M). destruct (B x (Hi x Hx)) as (H0 & (s' & Hs' & W') & M').
    specialize (M s' _ Hs' W'). specialize (M' s _ Hs W). lia. }
  assert (m v <= m w)%Z as Le.
  { clear - O. induction a as [|x a IH]; cbn in O; inversion_clear O as [|? ? O' F]; [|now apply IH].
    rewrite Forall_forall in F. apply F. rewrite map_app. apply in_app_iff. right. now left. }
  rewrite (Em v dv), (Em w dw) in Le; [lia | | assumption | | assumption]; rewrite Ed; apply in_app_iff; right.
  - right. apply in_app_iff. right. now left.
  - now left.
Qed.
(** The vertices which come later are not closer. *)
Lemma distance_unique g src v d d' : distance_is g src v d -> distance_is g src v d' -> d = d'.
Proof. intros ((s & Hs & W) & M) ((s' & Hs' & W') & M'). specialize (M s' d' Hs' W'). specialize (M' s d Hs W). lia. Qed.
Lemma bfs_split_order g src t D' a x b : wf_graph g -> NoDup src -> bfs_q g src (rev src) t D' ->
  source_events src ++ t = a ++ EDiscover x :: b -> forall y dx dy, ~ In y (discovers a) -> (exists s, In s src /\ reach g s y) ->
  distance_is g src x dx -> distance_is g src y dy -> dx <= dy.
Proof.
  intros wf N H E y dx dy Ny Ry Dx Dy. pose proof (bfs_order g src t D' wf N H) as O.
  apply (bfs_discovers_reach g src t D' y H) in Ry. rewrite E, discovers_app in Ry, O.
  change (discovers (EDiscover x :: b)) with (x :: discovers b) in Ry, O.
  apply in_app_iff in Ry. destruct Ry as [Ry | [<- | Ry]]; [contradiction | |].
  - now rewrite (distance_unique _ _ _ _ _ Dx Dy).
  - apply in_split in Ry. destruct Ry as (l1 & l2 & Eb). rewrite Eb in O. now apply (O (discovers a) x l1 y l2).
Qed.

(** *** Predecessors in a part of a breadth-first search *)
(** The vertex whose predecessor is set by an event. *)
Definition sets (ev : event) : option nat := match ev with ESearchStart u => Some u | ETreeStart e => Some (e_tgt e) | _ => None end.
Fixpoint paired (t : list event) : Prop :=
  match t with
  | [] => True
  | ev :: t => match sets ev with Some v => exists t', t = EDiscover v :: t' | None => True end /\ paired t
  end.
Lemma paired_suffix a b : paired (a ++ b) -> paired b.
Proof. induction a as [|ev a IH]; [easy|]. cbn. intros (_ & H). auto. Qed.
Lemma paired_app a b : paired a -> paired b -> paired (a ++ b).
Proof.
  induction a as [|ev a IH]; [easy|]. cbn. intros (H & P) Q. split; [|auto]. destruct (sets ev); [|easy]. destruct H as (t' & ->).
  exists (t' ++ b). reflexivity.
Qed.
Lemma paired_sources src : paired (source_events src).
Proof. induction src as [|a l IH]; [easy|]. change (source_events (a :: l)) with ([ESearchStart a; EDiscover a] ++ source_events l). apply paired_app; [cbn; eauto | exact IH]. Qed.
Lemma paired_es es D t qn D' : bfs_es es D t qn D' -> paired t.
Proof. induction 1; cbn; eauto 9. Qed.
Lemma paired_q g q D t D' : bfs_q g q D t D' -> paired t.
Proof.
  induction 1 as [|u q D t1 qn D1 t2 D' H1 H2 IH]; [now cbn|]. cbn [paired sets]. split; [easy|].
  apply paired_app; [eapply paired_es; eauto | now split].
Qed.
Lemma paired_in t ev v : paired t -> In ev t -> sets ev = Some v -> In v (discovers t).
Proof.
  induction t as [|ev' t IH]; [easy|]. cbn [paired]. intros (H & P) [-> | I] E.
  - rewrite E in H. destruct H as (t' & ->). rewrite in_discovers. right. now left.
  - specialize (IH P I E). rewrite in_discovers in *. now right.
Qed.
Lemma pred_unchanged t v : (forall ev, In ev t -> sets ev <> Some v) -> forall p, crun predecessor_recorder t p v = p v.
Proof.
  induction t as [|ev t IH]; intros H p; [reflexivity|]. rewrite crun_cons, IH by (intros; apply H; now right).
  specialize (H ev (or_introl eq_refl)). destruct ev; try reflexivity; cbn in *; apply upd_other; congruence.
Qed.
Lemma chain_prefix g (p p' : nat -> option nat) r n v : pred_chain g p r n v ->
  (forall k x, pred_chain g p r k x -> k <= n -> (k = n -> x = v) -> p' x = p x) -> pred_chain g p' r n v.
Proof.
  induction 1 as [Hr|k x v Hv Ha C IH]; intros H.
  - constructor. rewrite (H 0 r); auto. now constructor.
  - apply pc_step with x; auto.
    + rewrite (H (Datatypes.S k) v); auto. now apply pc_step with x.
    + apply IH. intros j y Cy Lj Ej. destruct (Nat.eq_dec j k) as [-> | Nj].
      * rewrite (Ej eq_refl). apply (H k x C); lia.
      * apply (H j y Cy); lia.
Qed.
Lemma chain_walk g p r n v : pred_chain g p r n v -> walk g r n v.
Proof. induction 1; econstructor; eauto. Qed.
Theorem bfs_path g src t D' a x b p r n : wf_graph g -> NoDup src -> bfs_q g src (rev src) t D' -> In r src ->
  source_events src ++ t = a ++ EDiscover x :: b -> distance_is g src x n ->
  pred_chain g (crun predecessor_recorder (source_events src ++ t) p) r n x ->
  pred_chain g (crun predecessor_recorder (a ++ [EDiscover x]) p) r n x.
Proof.
  intros wf N H Hr E Dx C. refine (chain_prefix _ _ _ _ _ _ C _). intros k y Cy Lk Ek.
  assert (Iy : In y (discovers (a ++ [EDiscover x]))).
  { rewrite discovers_app, in_app_iff. destruct (Nat.eq_dec k n) as [-> | Nk]; [right; left; symmetry; now apply Ek|]. left.
    destruct (in_dec Nat.eq_dec y (discovers a)) as [I | I]; [exact I|]. exfalso. apply chain_walk in Cy.
    assert (Ry : exists s, In s src /\ reach g s y) by (exists r; split; [exact Hr | now apply walk_reach in Cy]).
    assert (Dy : exists d, distance_is g src y d /\ d <= k).
    { destruct (bfs_distance g wf src t D' (fun _ => 0%Z) N H) as (B & _). cbv zeta in B.
      apply (bfs_q_exact g src t D' y H) in Ry. destruct (B y Ry) as (_ & Dy). eexists. split; [exact Dy|]. now apply (proj2 Dy r). }
    destruct Dy as (d & Dy & Ld). pose proof (bfs_split_order g src t D' a x b wf N H E y n d I Ry Dx Dy). lia. }
  rewrite E. replace (a ++ EDiscover x :: b) with ((a ++ [EDiscover x]) ++ b) by now rewrite <- app_assoc.
  rewrite (crun_app _ (a ++ [EDiscover x]) b), (pred_unchanged b y); [reflexivity|]. intros ev Iv Sv.
  assert (P : paired b).
  { apply (paired_suffix (a ++ [EDiscover x])). rewrite <- app_assoc. cbn [app]. rewrite <- E.
    apply paired_app; [apply paired_sources | eapply paired_q; eauto]. }
  pose proof (paired_in b ev y P Iv Sv) as Ib. pose proof (bfs_discovers_nodup g src t D' N H) as Nd.
  rewrite E in Nd. replace (a ++ EDiscover x :: b) with ((a ++ [EDiscover x]) ++ b) in Nd by now rewrite <- app_assoc.
  rewrite discovers_app in Nd. clear - Nd Iy Ib. induction (discovers (a ++ [EDiscover x])) as [|z l IH]; [easy|].
  cbn in Nd. inversion_clear Nd as [|? ? Nz Nl]. destruct Iy as [-> | Iy]; [|auto]. apply Nz. apply in_app_iff. now right.
Qed.

(** *** Predecessors in a part of a depth-first search *)
Fixpoint tsound (g : graph) (D : list nat) (t : list event) : Prop :=
  match t with
  | [] => True
  | ETreeStart e :: t => In (e_src e) D /\ arc g (e_src e) (e_tgt e) /\ ~ In (e_tgt e) D /\ tsound g (e_tgt e :: D) t
  | EDiscover v :: t => In v D /\ tsound g D t
  | ESearchStart _ :: _ | EInit _ :: _ => False
  | _ :: t => tsound g D t
  end.
Definition recorded (t : list event) : list nat := flat_map (fun ev => match ev with ETreeStart e => [e_tgt e] | _ => [] end) t.
Lemma tsound_ext g t : forall D D', (forall v, In v D <-> In v D') -> tsound g D t -> tsound g D' t.
Proof.
  induction t as [|ev t IH]; intros D D' E H; [easy|]. destruct ev; cbn in *; try easy; try (eapply IH; eauto; fail).
  - destruct H as (I & H). split; [now apply E | eapply IH; eauto].
  - destruct H as (I & A & N & H). repeat split; auto; [now apply E | now rewrite <- E |]. refine (IH _ _ _ H). intros v. cbn. now rewrite E.
Qed.
Lemma tsound_app g a b : forall D, tsound g D (a ++ b) <-> tsound g D a /\ tsound g (recorded a ++ D) b.
Proof.
  induction a as [|ev a IH]; intros D; [cbn; tauto|]. destruct ev; cbn [app tsound recorded flat_map]; try rewrite IH; try tauto.
  fold (recorded a). assert (X : forall v, In v (recorded a ++ e_tgt e :: D) <-> In v (([e_tgt e] ++ recorded a) ++ D)).
  { intros v. rewrite !in_app_iff. cbn. tauto. }
  split.
  - intros (A & B & C & E & F). repeat split; auto. eapply tsound_ext; [|exact F]. exact X.
  - intros ((A & B & C & E) & F). repeat split; auto. eapply tsound_ext; [|exact F]. intros v. symmetry. apply X.
Qed.
Lemma visit_scan_sound g : wf_graph g ->
  (forall u D t D', visit g u D t D' -> tsound g (u :: D) t /\ forall v, In v D' <-> In v (recorded t ++ u :: D)) /\
  (forall u es D t D', scan_es g u es D t D' -> In u D -> incl es (g_out g u) -> tsound g D t /\ forall v, In v D' <-> In v (recorded t ++ D)).
Proof.
  intros wf. apply visit_scan_ind.
  - intros u D t D' _ IH. destruct (IH (or_introl eq_refl) (incl_refl _)) as (A & B). split; [|exact B].
    cbn [tsound]. split; [now left | exact A].
  - intros u D _ _. split; [now cbn | easy].
  - intros u e es D t D' Hi _ IH Hu Hs. apply IH; auto. intros x Hx. apply Hs. now right.
  - intros u e es D t1 D1 t2 D' Hn H1 (A1 & B1) H2 IH2 Hu Hs.
    assert (In e (g_out g u)) as He by (apply Hs; now left). destruct (wf _ _ He) as (E1 & E2).
    destruct IH2 as (A2 & B2); [now apply (visit_incl _ _ _ _ _ H1) | intros x Hx; apply Hs; now right |].
    split.
    + cbn [tsound]. rewrite E1. repeat split; auto; [exists e; auto|]. apply tsound_app. split; [exact A1|]. cbn [tsound].
      eapply tsound_ext; [|exact A2]. intros v. now rewrite B1.
    + intros v. rewrite B2. change (recorded (ETreeStart e :: t1 ++ ETreeFinish e :: t2)) with (e_tgt e :: recorded (t1 ++ ETreeFinish e :: t2)).
      unfold recorded at 2. rewrite flat_map_app. fold (recorded t1). change (flat_map _ (ETreeFinish e :: t2)) with (recorded t2).
      cbn [app In]. rewrite !in_app_iff, B1, in_app_iff. cbn [In]. tauto.
Qed.
Inductive chain_in (g : graph) (p : nat -> option nat) (D : list nat) (r : nat) : nat -> nat -> Prop :=
| ci_root : In r D -> p r = Some r -> chain_in g p D r 0 r
| ci_step k x v : In v D -> p v = Some x -> arc g x v -> chain_in g p D r k x -> chain_in g p D r (Datatypes.S k) v.
Lemma chain_in_upd g p D r n v w y : ~ In w D -> chain_in g p D r n v -> chain_in g (upd p w y) (w :: D) r n v.
Proof.
  intros N. induction 1 as [I E|k x v I E A C IH].
  - constructor; [now right|]. rewrite upd_other; [exact E | intros ->; contradiction].
  - apply ci_step with x; auto; [now right|]. rewrite upd_other; [exact E | intros ->; contradiction].
Qed.
Lemma chain_in_pred g p D r n v : chain_in g p D r n v -> pred_chain g p r n v.
Proof. induction 1; econstructor; eauto. Qed.
Lemma chain_in_in g p D r n v : chain_in g p D r n v -> In v D. Proof. now destruct 1. Qed.
Lemma tsound_chains g r t : forall D p, tsound g D t -> (forall v, In v D -> exists n, chain_in g p D r n v) ->
  forall v, In v (discovers t) -> exists n, pred_chain g (crun predecessor_recorder t p) r n v.
Proof.
  assert (G : forall t D p, tsound g D t -> (forall v, In v D -> exists n, chain_in g p D r n v) ->
    forall v, In v D \/ In v (discovers t) -> exists n, pred_chain g (crun predecessor_recorder t p) r n v).
  { clear t. induction t as [|ev t IH]; intros D p H C v Iv.
    - destruct Iv as [Iv | []]. destruct (C v Iv) as (n & X). exists n. now apply chain_in_pred in X.
    - rewrite crun_cons. destruct ev; cbn in H; try easy; try (apply (IH D p H C v); exact Iv).
      + destruct H as (I & H). apply (IH D p H C v). destruct Iv as [Iv | [<- | Iv]]; auto.
      + destruct H as (I & A & N & H). apply (IH (e_tgt e :: D) (upd p (e_tgt e) (Some (e_src e))) H).
        * intros w [<- | Iw].
          -- destruct (C _ I) as (n & X). exists (Datatypes.S n). apply ci_step with (e_src e); auto; [now left | apply upd_same|]. now apply chain_in_upd.
          -- destruct (C _ Iw) as (n & X). exists n. now apply chain_in_upd.
        * destruct Iv as [Iv | Iv]; [left; now right | now right]. }
  intros D p H C v Iv. apply (G t D p H C). now right.
Qed.

(** ** Results *)
(** The events seen by any component next to the flags. *)
Definition reports_bfs (g : graph) (term : nat -> bool) (src : list nat) (t : list event) : Prop :=
  forall S (c : component S) s m, c_disc c = None -> exists m' k, forall f, k <= f ->
    bfs (with_flag c) g term f (s, m) src = Ok (crun c t s, m').
Definition reports_dfs (g : graph) (term : nat -> bool) (u : nat) (t : list event) : Prop :=
  forall S (c : component S) s m, c_disc c = None -> exists m' k, forall f, k <= f ->
    dfs_from (with_flag c) g term f (s, m) u = Ok (crun c t s, m').
Lemma reports_bfs_cut g term src t D' : wf_graph g -> NoDup src -> (forall v, In v src -> v < g_n g) -> bfs_q g src (rev src) t D' ->
  reports_bfs g term src (init_events g ++ cut discovered term (source_events src ++ t)).
Proof.
  intros wf N L H S c s m N0.
  destruct (bfs_term (with_flag c) g (flag_ok g) wf (flag_bfs_disciplined g c N0) term src t D' (s, m) H N L (flag_init g c _)) as (k & E).
  rewrite init_all_run, <- run_app in E. eexists _, k. intros f Hf. rewrite (E f Hf), run_with_flag. reflexivity.
Qed.
Lemma cut_always sel t : cut sel always_false t = t.
Proof. apply cut_none. induction t as [|ev t IH]; [easy|]. cbn. now destruct (sel ev). Qed.
Theorem bfs_terminator g src term : wf_graph g -> NoDup src -> (forall v, In v src -> v < g_n g) ->
  exists t0 t, reports_bfs g always_false src (init_events g ++ t0) /\ reports_bfs g term src (init_events g ++ t) /\
    ((forall x s, In s src -> reach g s x -> term x = false) -> t = t0) /\
    (forall y s, In s src -> reach g s y -> term y = true ->
      exists a x b, t0 = a ++ EDiscover x :: b /\ t = a ++ [EDiscover x; ESearchFinish (Some x)] /\
        term x = true /\ (forall z, In z (discovers a) -> term z = false) /\
        exists n, distance_is g src x n /\ forall z d, term z = true -> distance_is g src z d -> n <= d).
Proof.
  intros wf N L. destruct (bfs_q_exists g wf src (rev src)) as (t & D' & H).
  exists (source_events src ++ t), (cut discovered term (source_events src ++ t)). split; [|split; [|split]].
  - rewrite <- (cut_always discovered (source_events src ++ t)). now apply reports_bfs_cut with D'.
  - now apply reports_bfs_cut with D'.
  - intros F. apply cut_none, not_true_iff_false. rewrite hits_discovered. intros (x & Ix & Tx).
    apply (bfs_discovers_reach g src t D' x H) in Ix. destruct Ix as (s & Hs & R). now rewrite (F x s Hs R) in Tx.
  - intros y s Hs R Ty.
    assert (Ht : hits discovered term (source_events src ++ t) = true).
    { apply hits_discovered. exists y. split; [|exact Ty]. apply (bfs_discovers_reach g src t D' y H). eauto. }
    destruct (cut_found _ _ _ Ht) as (a & ev & x & b & E & Sx & Tx & Ha & C). destruct ev; try discriminate Sx. injection Sx as ->.
    exists a, x, b. split; [exact E|]. split; [exact C|]. split; [exact Tx|].
    assert (Fa : forall z, In z (discovers a) -> term z = false).
    { intros z Iz. apply not_true_iff_false. intros Tz. apply not_true_iff_false in Ha. apply Ha, hits_discovered. eauto. }
    split; [exact Fa|].
    assert (Rx : exists s, In s src /\ reach g s x).
    { apply (bfs_discovers_reach g src t D' x H). rewrite E, discovers_app. apply in_app_iff. right. now left. }
    destruct (bfs_distance g wf src t D' (fun _ => 0%Z) N H) as (B & _). cbv zeta in B.
    apply (bfs_q_exact g src t D' x H) in Rx. destruct (B x Rx) as (_ & Dx). eexists. split; [exact Dx|].
    intros z d Tz Dz. refine (bfs_split_order g src t D' a x b wf N H E z _ d _ _ Dx Dz).
    + intros Iz. now rewrite (Fa z Iz) in Tz.
    + destruct Dz as ((s' & Hs' & W) & _). apply walk_reach in W. eauto.
Qed.
Lemma pred_run g t p : Forall no_init t -> run pred_visitor t (init_all pred_visitor g p) = crun predecessor_recorder t (init_all pred_visitor g p).
Proof. intros H. unfold pred_visitor. rewrite run_to_visitor. now apply vertex_initializer_run. Qed.
Theorem bfs_terminator_path g src term p : wf_graph g -> NoDup src -> (forall v, In v src -> v < g_n g) ->
  forall y s, In s src -> reach g s y -> term y = true ->
  exists k p', (forall f, k <= f -> bfs pred_visitor g term f p src = Ok p') /\
    exists x r n, term x = true /\ In r src /\ pred_chain g p' r n x /\ distance_is g src x n /\
      forall z d, term z = true -> distance_is g src z d -> n <= d.
Proof.
  intros wf N L y s Hs R Ty. destruct (bfs_q_exists g wf src (rev src)) as (t & D' & H).
  destruct (bfs_term pred_visitor g (pred_ok g) wf (pred_bfs_disciplined g) term src t D' p H N L (pred_init g p)) as (k & E).
  exists k. eexists. split; [exact E|].
  assert (Ht : hits discovered term (source_events src ++ t) = true).
  { apply hits_discovered. exists y. split; [|exact Ty]. apply (bfs_discovers_reach g src t D' y H). eauto. }
  destruct (cut_found _ _ _ Ht) as (a & ev & x & b & Et & Sx & Tx & Ha & C). destruct ev; try discriminate Sx. injection Sx as ->.
  assert (Rx : exists s, In s src /\ reach g s x).
  { apply (bfs_discovers_reach g src t D' x H). rewrite Et, discovers_app. apply in_app_iff. right. now left. }
  destruct Rx as (s' & Hs' & Rx).
  assert (NI : Forall no_init (source_events src ++ t)).
  { apply Forall_app. split; [apply source_no_init | now apply (bfs_q_no_init _ _ _ _ _ H)]. }
  destruct (bfs_predecessor_recorder g src p wf N L) as (k0 & q & Eq & _ & Q).
  destruct (bfs_run pred_visitor g (pred_ok g) wf (pred_bfs_disciplined g) src t D' p H N L (pred_init g p)) as (_ & k1 & E1).
  specialize (Eq (k0 + k1) ltac:(lia)). rewrite (E1 (k0 + k1) ltac:(lia)) in Eq. injection Eq as <-.
  rewrite pred_run in Q by exact NI.
  destruct (Q x s' Hs' Rx) as (r & n & Hr & Cx & Dx).
  exists x, r, n. split; [exact Tx|]. split; [exact Hr|]. split; [|split; [exact Dx|]].
  - rewrite C, pred_run.
    + replace (a ++ [EDiscover x; ESearchFinish (Some x)]) with ((a ++ [EDiscover x]) ++ [ESearchFinish (Some x)]) by now rewrite <- app_assoc.
      rewrite (crun_app _ (a ++ [EDiscover x]) [ESearchFinish (Some x)]). cbn [crun fold_left c_step predecessor_recorder].
      exact (bfs_path g src t D' a x b _ r n wf N H Hr Et Dx Cx).
    + rewrite Et in NI. apply Forall_app in NI. destruct NI as (NI & _). apply Forall_app. split; [exact NI | repeat constructor].
  - intros z d Tz Dz. refine (bfs_split_order g src t D' a x b wf N H Et z n d _ _ Dx Dz).
    + intros Iz. apply not_true_iff_false in Ha. apply Ha, hits_discovered. eauto.
    + destruct Dz as ((s2 & Hs2 & W) & _). apply walk_reach in W. eauto.
Qed.

Lemma reports_dfs_cut g term u t D' : wf_graph g -> u < g_n g -> visit g u [] t D' ->
  reports_dfs g term u (init_events g ++ cut started term (ESearchStart u :: t ++ [ESearchFinish (Some u)])).
Proof.
  intros wf Hu H S c s m N0.
  destruct (visit_term (with_flag c) g (flag_ok g) wf (flag_disciplined g c N0) term u [] t D' _ H Hu (fun x => x) (flag_init g c (s, m))) as (k & E).
  rewrite init_all_run, <- run_app in E. eexists _, k. intros f Hf. unfold dfs_from. rewrite init_all_run, (E f Hf), run_with_flag. reflexivity.
Qed.
Lemma dfs_starts_reach g u t D' v : visit g u [] t D' -> In v (starts (ESearchStart u :: t ++ [ESearchFinish (Some u)])) <-> reach g u v.
Proof.
  intros H. change (starts (ESearchStart u :: t ++ [ESearchFinish (Some u)])) with (starts (t ++ [ESearchFinish (Some u)])).
  rewrite starts_app, app_nil_r. destruct (proj1 (visit_scan_starts g) _ _ _ _ H) as (-> & _).
  now rewrite (white_path g u [] t D' v H), reach_avoid_nil by easy.
Qed.
Theorem dfs_terminator g u term : wf_graph g -> u < g_n g ->
  exists t0 t, reports_dfs g always_false u (init_events g ++ t0) /\ reports_dfs g term u (init_events g ++ t) /\
    ((forall x, reach g u x -> term x = false) -> t = t0) /\
    (forall y, reach g u y -> term y = true ->
      exists a x b, t0 = a ++ EStart x :: b /\ t = a ++ [EStart x; ESearchFinish (Some x)] /\
        term x = true /\ reach g u x /\ (forall z, In z (starts a) -> term z = false)).
Proof.
  intros wf Hu. destruct (visit_exists g wf u [] Hu (fun x => x)) as (t & D' & H).
  exists (ESearchStart u :: t ++ [ESearchFinish (Some u)]), (cut started term (ESearchStart u :: t ++ [ESearchFinish (Some u)])).
  split; [|split; [|split]].
  - rewrite <- (cut_always started (ESearchStart u :: _)). now apply reports_dfs_cut with D'.
  - now apply reports_dfs_cut with D'.
  - intros F. apply cut_none, not_true_iff_false. rewrite hits_started. intros (x & Ix & Tx).
    apply (dfs_starts_reach g u t D' x H) in Ix. now rewrite (F x Ix) in Tx.
  - intros y R Ty.
    assert (Ht : hits started term (ESearchStart u :: t ++ [ESearchFinish (Some u)]) = true).
    { apply hits_started. exists y. split; [|exact Ty]. now apply (dfs_starts_reach g u t D' y H). }
    destruct (cut_found _ _ _ Ht) as (a & ev & x & b & E & Sx & Tx & Ha & C). destruct ev; try discriminate Sx. injection Sx as ->.
    exists a, x, b. split; [exact E|]. split; [exact C|]. split; [exact Tx|]. split.
    + apply (dfs_starts_reach g u t D' x H). rewrite E, starts_app. apply in_app_iff. right. now left.
    + intros z Iz. apply not_true_iff_false. intros Tz. apply not_true_iff_false in Ha. apply Ha, hits_started. eauto.
Qed.
Lemma discover_then_start g : 
  (forall u D t D', visit g u D t D' -> forall a x b, t = a ++ EStart x :: b -> In x (discovers a)) /\
  (forall u es D t D', scan_es g u es D t D' -> forall a x b, t = a ++ EStart x :: b -> In x (discovers a)).
Proof.
  assert (K : forall t1 ev t2, (forall a x b, t1 = a ++ EStart x :: b -> In x (discovers a)) ->
    (forall a x b, t2 = a ++ EStart x :: b -> In x (discovers a)) -> started ev = None ->
    forall a x b, t1 ++ ev :: t2 = a ++ EStart x :: b -> In x (discovers a)).
  { intros t1. induction t1 as [|e1 t1 IH]; intros ev t2 H1 H2 Se a x b E.
    - destruct a as [|e a]; cbn in E; [injection E as -> _; discriminate Se|]. injection E as -> E.
      change (e :: a) with ([e] ++ a). rewrite discovers_app. apply in_app_iff. right. now apply (H2 a x b).
    - destruct a as [|e a]; cbn in E.
      + injection E as -> E. now specialize (H1 [] x t1 eq_refl).
      + injection E as -> E.
        destruct (in_dec Nat.eq_dec x (discovers (e :: a))) as [I | I]; [exact I|]. exfalso. 
        apply app_eq_app in E. destruct E as (l & [[E1 E2] | [E1 E2]]).
        * destruct l as [|e' l]; cbn in E2; [injection E2 as <- _; discriminate Se|]. injection E2 as <- E2.
          apply I. apply (H1 (e :: a) x l). now rewrite E1.
        * destruct l as [|e' l]; cbn in E2; [injection E2 as -> _; discriminate Se|]. injection E2 as -> E2.
          apply I. change (e :: a) with ([e] ++ a). rewrite E1. rewrite !discovers_app. apply in_app_iff. right. apply in_app_iff. right.
          change (e' :: l) with ([e'] ++ l). rewrite discovers_app. apply in_app_iff. right. now apply (H2 l x b). }
  apply visit_scan_ind.
  - intros u D t D' _ IH a x b E. destruct a as [|e1 [|e2 a]]; cbn in E; [discriminate E | injection E as <- <- _; now left |].
    injection E as <- <- E. specialize (IH a x b E). change (In x (u :: discovers a)). now right.
  - intros u D a x b E. destruct a as [|? [|]]; discriminate E.
  - intros u e es D t D' _ _ IH. apply (K [] (ENonTree e) t); auto. intros a x b E. now destruct a.
  - intros u e es D t1 D1 t2 D' _ _ IH1 _ IH2. apply (K [] (ETreeStart e)); [intros a x b E; now destruct a | | reflexivity].
    apply K; auto.
Qed.
Theorem dfs_terminator_path g u term p : wf_graph g -> u < g_n g -> forall y, reach g u y -> term y = true ->
  exists k p', (forall f, k <= f -> dfs_from pred_visitor g term f p u = Ok p') /\
    exists x n, term x = true /\ pred_chain g p' u n x.
Proof.
  intros wf Hu y R Ty. destruct (visit_exists g wf u [] Hu (fun x => x)) as (t & D' & H).
  destruct (visit_term pred_visitor g (pred_ok g) wf (pred_disciplined g) term u [] t D' _ H Hu (fun x => x) (pred_init g p)) as (k & E).
  exists k. eexists. split; [exact E|].
  assert (Ht : hits started term t = true).
  { apply hits_started. exists y. split; [|exact Ty]. apply (dfs_starts_reach g u t D' y H) in R.
    change (In y (starts (t ++ [ESearchFinish (Some u)]))) in R. now rewrite starts_app, app_nil_r in R. }
  change (cut started term (ESearchStart u :: t ++ [ESearchFinish (Some u)])) with (ESearchStart u :: cut started term (t ++ [ESearchFinish (Some u)])).
  rewrite cut_app, Ht.
  destruct (cut_found _ _ _ Ht) as (a & ev & x & b & Et & Sx & Tx & Ha & C). destruct ev; try discriminate Sx. injection Sx as ->.
  rewrite C. exists x.
  destruct (proj1 (visit_scan_sound g wf) _ _ _ _ H) as (Ts & _). rewrite Et in Ts. apply tsound_app in Ts. destruct Ts as (Ts & _).
  assert (NI : Forall no_init a).
  { clear - Ts. revert Ts. generalize [u]. induction a as [|ev a IH]; intros D Ts; [constructor|].
    destruct ev; cbn in Ts; try easy; constructor; try exact I; try (now apply (IH D)); try (destruct Ts as (_ & Ts); now apply (IH D)).
    destruct Ts as (_ & _ & _ & Ts). now apply (IH _ Ts). }
  rewrite pred_run by (constructor; [exact I|]; apply Forall_app; split; [exact NI | repeat constructor]).
  rewrite crun_cons, crun_app. cbn [crun fold_left c_step predecessor_recorder].
  destruct (tsound_chains g u a [u] (upd (init_all pred_visitor g p) u (Some u)) Ts) with (v := x) as (n & X).
  - intros v [<- | []]. exists 0. constructor; [now left | apply upd_same].
  - apply (proj1 (discover_then_start g) _ _ _ _ H a x b Et).
  - exists n. split; [exact Tx | exact X].
Qed.
