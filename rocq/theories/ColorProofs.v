(** Colours and predecessor edges recorded by the searches. *)
From Coq Require Import ZArith List Bool PeanoNat Lia Permutation Sorted.
From Verif Require Import Outcome GraphModel DfsProofs DfsResults BfsProofs.
Import ListNotations.

(** ** Colours tell discovered vertices from others *)
Definition color_visitor : visitor (nat -> color) := to_visitor color_recorder.
Definition color_ok (g : graph) (D : list nat) (m : nat -> color) : Prop :=
  forall v, v < g_n g -> m v <> White <-> In v D.
Lemma color_ok_new g D m u : color_ok g D m -> color_ok g (u :: D) (upd m u Gray).
Proof.
  intros H v Hv. unfold upd. destruct (Nat.eqb_spec v u) as [->|n]; [split; [now left | easy]|].
  rewrite (H v Hv). split; [now right | intros [?|?]; [congruence | assumption]].
Qed.
Lemma color_ok_black g D m u : color_ok g D m -> In u D -> color_ok g D (upd m u Black).
Proof. intros H Hu v Hv. unfold upd. destruct (Nat.eqb_spec v u) as [->|n]; [split; easy | now apply H]. Qed.
Lemma color_ok_disc g D m v : color_ok g D m -> v < g_n g -> v_disc color_visitor m v = true <-> In v D.
Proof. intros H Hv. rewrite <- (H v Hv). cbn. now destruct (m v). Qed.
Lemma color_bfs_disciplined g : bfs_disciplined g color_visitor (color_ok g).
Proof.
  split; intros; try assumption; try (apply color_ok_new; assumption); try (apply color_ok_black; assumption).
  now apply (color_ok_disc g).
Qed.
Lemma color_disciplined g : disciplined g color_visitor (color_ok g).
Proof.
  split; intros; try assumption; try (apply color_ok_new; assumption); try (apply color_ok_black; assumption).
  now apply (color_ok_disc g).
Qed.
Lemma color_init_white g m v : v < g_n g -> init_all color_visitor g m v = White.
Proof.
  intro Hv. assert (forall us p, fold_left (fun s u => v_step color_visitor (EInit u) s) us p = fold_left (fun m u => upd m u White) us p) as E by reflexivity.
  unfold init_all. rewrite E. now apply fold_upd, in_vertices.
Qed.
Lemma color_init g m : color_ok g [] (init_all color_visitor g m).
Proof. intros v Hv. rewrite color_init_white by assumption. easy. Qed.

(** ** Depth-first search *)
Lemma visit_scan_colors g :
  (forall u D t D', visit g u D t D' -> forall m v,
     (In v (discovers t) -> crun color_recorder t m v = Black) /\
     (~ In v (discovers t) -> crun color_recorder t m v = m v)) /\
  (forall u es D t D', scan_es g u es D t D' -> forall m v,
     (v = u \/ In v (discovers t) -> crun color_recorder t m v = Black) /\
     (v <> u -> ~ In v (discovers t) -> crun color_recorder t m v = m v)).
Proof.
  apply visit_scan_ind.
  - intros u D t D' _ IH m v. change (discovers (EDiscover u :: EStart u :: t)) with (u :: discovers t).
    change (crun color_recorder (EDiscover u :: EStart u :: t) m) with (crun color_recorder t (upd m u Gray)).
    destruct (IH (upd m u Gray) v) as (A & B). split.
    + intros [->|Hv]; apply A; tauto.
    + intro Hv. assert (v <> u) by (intros ->; apply Hv; now left).
      rewrite B; [now apply upd_other | assumption | intro; apply Hv; now right].
  - intros u D m v. cbn. split; [intros [->|[]]; apply upd_same | intros H _; now apply upd_other].
  - intros u e es D t D' _ _ IH m v. exact (IH m v).
  - intros u e es D t1 D1 t2 D' _ _ IH1 _ IH2 m v.
    change (discovers (ETreeStart e :: t1 ++ ETreeFinish e :: t2)) with (discovers (t1 ++ ETreeFinish e :: t2)).
    change (crun color_recorder (ETreeStart e :: t1 ++ ETreeFinish e :: t2) m) with (crun color_recorder (t1 ++ ETreeFinish e :: t2) m).
    rewrite discovers_app, crun_app, in_app_iff. change (discovers (ETreeFinish e :: t2)) with (discovers t2).
    change (crun color_recorder (ETreeFinish e :: t2)) with (crun color_recorder t2).
    destruct (IH1 m v) as (A1 & B1). destruct (IH2 (crun color_recorder t1 m) v) as (A2 & B2). split.
    + intro H. destruct (Nat.eq_dec v u) as [->|n]; [apply A2; now left|].
      destruct (in_dec Nat.eq_dec v (discovers t2)) as [Hi|Hi]; [apply A2; now right|].
      rewrite B2 by assumption. apply A1. tauto.
    + intros n H. rewrite B2, B1 by tauto. reflexivity.
Qed.
Lemma forest_colors g rs D t D' : forest g rs D t D' -> forall m v,
  (In v (discovers t) -> crun color_recorder t m v = Black) /\ (~ In v (discovers t) -> crun color_recorder t m v = m v).
Proof.
  induction 1 as [D|r rs D t D' Hi F IH|r rs D t1 D1 t2 D' Hn H1 H2 IH]; intros m v; [easy | apply IH |].
  change (discovers (ESearchStart r :: t1 ++ ESearchFinish (Some r) :: t2)) with (discovers (t1 ++ ESearchFinish (Some r) :: t2)).
  change (crun color_recorder (ESearchStart r :: t1 ++ ESearchFinish (Some r) :: t2) m) with (crun color_recorder (t1 ++ ESearchFinish (Some r) :: t2) m).
  rewrite discovers_app, crun_app, in_app_iff. change (discovers (ESearchFinish (Some r) :: t2)) with (discovers t2).
  change (crun color_recorder (ESearchFinish (Some r) :: t2)) with (crun color_recorder t2).
  destruct (proj1 (visit_scan_colors g) _ _ _ _ H1 m v) as (A1 & B1). destruct (IH (crun color_recorder t1 m) v) as (A2 & B2). split.
  - intro H. destruct (in_dec Nat.eq_dec v (discovers t2)) as [Hi|Hi]; [now apply A2|].
    rewrite B2 by assumption. apply A1. tauto.
  - intro H. rewrite B2, B1 by tauto. reflexivity.
Qed.
Theorem dfs_colors g u m : wf_graph g -> u < g_n g ->
  exists k m', (forall f, k <= f -> dfs_from color_visitor g always_false f m u = Ok m') /\
    forall v, v < g_n g -> (reach g u v -> m' v = Black) /\ (~ reach g u v -> m' v = White).
Proof.
  intros wf Hu. destruct (dfs_from_run color_visitor g (color_ok g) wf (color_disciplined g) m u (color_init g m) Hu)
    as (t & D' & Hv & R & k & E). cbv zeta in E. exists k. eexists. split; [exact E|].
  intros v Lv. change (run color_visitor (ESearchStart u :: t ++ [ESearchFinish (Some u)]) (init_all color_visitor g m) v)
    with (crun color_recorder (t ++ [ESearchFinish (Some u)]) (init_all color_visitor g m) v).
  rewrite crun_app. change (crun color_recorder [ESearchFinish (Some u)]) with (fun s : nat -> color => s). cbv beta.
  destruct (proj1 (visit_scan_colors g) _ _ _ _ Hv (init_all color_visitor g m) v) as (A & B).
  assert (In v (discovers t) <-> reach g u v) as Rd by now rewrite (white_path g u [] t D' v Hv), reach_avoid_nil.
  rewrite <- Rd. split; [exact A|]. intro H. rewrite B by assumption. now apply color_init_white.
Qed.
Theorem dfs_all_colors g m : wf_graph g ->
  exists k m', (forall f, k <= f -> dfs_all color_visitor g always_false f m = Ok m') /\
    forall v, v < g_n g -> m' v = Black.
Proof.
  intros wf. destruct (dfs_all_run color_visitor g (color_ok g) wf (color_disciplined g) m (color_init g m))
    as (t & D' & F & R & k & E). cbv zeta in E. exists k. eexists. split; [exact E|].
  intros v Lv. apply (forest_colors g _ _ _ _ F).
  assert (In v D') as Hi by now apply (forest_roots g _ _ _ _ _ F), in_vertices.
  apply (forest_in g _ _ _ _ _ F) in Hi. destruct Hi as [?|[]]. assumption.
Qed.

(** ** Breadth-first search *)
Lemma bfs_es_colors es D t qn D' : bfs_es es D t qn D' -> forall m v,
  ~ In v qn -> crun color_recorder t m v = m v.
Proof.
  induction 1 as [D|e es D t q D' Hi H IH|e es D t q D' Hn H IH]; intros m v Hv; [easy | now apply (IH m) |].
  change (crun color_recorder t (upd m (e_tgt e) Gray) v = m v).
  rewrite IH by (intro; apply Hv; now right). apply upd_other. intros ->. apply Hv. now left.
Qed.
Lemma bfs_q_colors g q D t D' : bfs_q g q D t D' -> forall m,
  (forall v, In v D -> ~ In v q -> m v = Black) ->
  (forall v, In v D' -> crun color_recorder t m v = Black).
Proof.
  induction 1 as [D|u q D t1 qn D1 t2 D' H1 H2 IH]; intros m Hm v Hv.
  - now apply (Hm v Hv).
  - change (crun color_recorder (EStart u :: t1 ++ EFinish u :: t2) m v) with (crun color_recorder (t1 ++ EFinish u :: t2) m v).
    rewrite crun_app. change (crun color_recorder t2 (upd (crun color_recorder t1 m) u Black) v = Black).
    apply IH; [|assumption]. intros w Hw Hq. unfold upd. destruct (Nat.eqb_spec w u) as [->|n]; [reflexivity|].
    rewrite in_app_iff in Hq. rewrite (bfs_es_colors _ _ _ _ _ H1) by tauto.
    destruct (bfs_es_facts _ _ _ _ _ H1) as (A1 & _). rewrite A1, in_app_iff, <- in_rev in Hw.
    apply Hm; [tauto|]. intros [->|?]; tauto.
Qed.
Theorem bfs_colors g src m : wf_graph g -> NoDup src -> (forall v, In v src -> v < g_n g) ->
  exists k m', (forall f, k <= f -> bfs color_visitor g always_false f m src = Ok m') /\
    forall v, v < g_n g -> ((exists s, In s src /\ reach g s v) -> m' v = Black) /\
                           (~ (exists s, In s src /\ reach g s v) -> m' v = White).
Proof.
  intros wf N L. destruct (bfs_q_exists g wf src (rev src)) as (t & D' & H).
  destruct (bfs_run color_visitor g (color_ok g) wf (color_bfs_disciplined g) src t D' m H N L (color_init g m)) as (RE & k & E).
  exists k. eexists. split; [exact E|]. intros v Lv. rewrite <- (bfs_q_exact g src t D' v H). split.
  - intro Hv. rewrite run_app. unfold color_visitor at 1. rewrite run_to_visitor. apply (bfs_q_colors g _ _ _ _ H); [|assumption].
    intros w Hw Hq. rewrite <- in_rev in Hw. contradiction.
  - intro Hv. specialize (RE v Lv). destruct (run color_visitor (source_events src ++ t) (init_all color_visitor g m) v);
      [reflexivity | |]; destruct Hv; now apply RE.
Qed.

(** ** Cycles *)
(** A user's visitor on top of the recorder: remembers whether some non-tree
    edge went to a gray vertex. *)
Definition is_gray (c : color) : bool := match c with Gray => true | _ => false end.
Definition gray_watcher : component ((nat -> color) * bool) := {|
  c_step := fun ev s => (c_step color_recorder ev (fst s),
                         match ev with ENonTree e => snd s || is_gray (fst s (e_tgt e)) | _ => snd s end);
  c_disc := option_map (fun d s u => d (fst s) u) (c_disc color_recorder) |}.
Definition gray_visitor := to_visitor gray_watcher.
Lemma gray_disciplined g : disciplined g gray_visitor (fun D s => color_ok g D (fst s)).
Proof.
  split; intros; try assumption; try (apply color_ok_new; assumption); try (apply color_ok_black; assumption).
  now apply (color_ok_disc g).
Qed.
Definition has_cycle (g : graph) : Prop := exists u v, arc g u v /\ reach g v u.

Lemma closed_prefix g F a w b v x : targets_first g F -> F = a ++ w :: b -> In v a -> reach g v x -> In x a.
Proof.
  intros HF E Hv R. induction R as [|y z R IH Ha]; [assumption|].
  apply in_split in IH. destruct IH as (a1 & a2 & Ea). rewrite Ea, <- app_assoc in E.
  cbn [app] in E. rewrite Ea. apply in_app_iff. left. now apply (HF a1 y _ E).
Qed.
Lemma first_split (u : nat) F : In u F -> exists a b, F = a ++ u :: b /\ ~ In u a.
Proof.
  induction F as [|x F IH]; [easy|]. intro H. destruct (Nat.eq_dec x u) as [->|n]; [now exists [], F|].
  destruct H as [?|H]; [contradiction|]. destruct (IH H) as (a & b & -> & Ha). exists (x :: a), b.
  split; [reflexivity|]. intros [?|?]; contradiction.
Qed.
Lemma targets_first_no_cycle g F u v : targets_first g F -> In u F -> arc g u v -> ~ reach g v u.
Proof.
  intros HF Hu Ha R. destruct (first_split u F Hu) as (a & b & E & Hn). apply Hn.
  apply (closed_prefix g F a u b v u HF E); [|assumption]. now apply (HF a u b E).
Qed.

Section Cycles.
  Variable g : graph.
  Hypothesis wf : wf_graph g.
  (** [D] discovered, [K] not finished. *)
  Record gray_inv (D K : list nat) (s : (nat -> color) * bool) : Prop := {
    gi_incl : incl K D;
    gi_gray v : v < g_n g -> fst s v = Gray <-> In v K;
    gi_yes : snd s = true -> has_cycle g;
    gi_no : snd s = false -> exists F, targets_first g F /\ forall v, In v F <-> In v D /\ ~ In v K }.
  Lemma gray_visit_scan :
    (forall u D t D', visit g u D t D' -> forall K s, gray_inv D K s -> u < g_n g -> ~ In u D -> (forall w, In w K -> reach g w u) ->
       gray_inv D' K (run gray_visitor t s) /\ (snd s = true -> snd (run gray_visitor t s) = true)) /\
    (forall u es D t D', scan_es g u es D t D' -> forall K s, gray_inv D (u :: K) s -> u < g_n g -> ~ In u K ->
       (forall w, In w K -> reach g w u) -> incl es (g_out g u) ->
       (snd s = false -> forall x, arc g u x -> (In x D /\ ~ In x (u :: K)) \/ exists e, In e es /\ e_tgt e = x) ->
       gray_inv D' K (run gray_visitor t s) /\ (snd s = true -> snd (run gray_visitor t s) = true)).
  Proof.
    apply visit_scan_ind.
    - intros u D t D' _ IH K [m b] I Hu Hn HK.
      apply (IH K (upd m u Gray, b)); [|assumption | intro; now apply Hn, (gi_incl _ _ _ I) | assumption | apply incl_refl |].
      + split.
        * intros x [<-|Hx]; [now left | right; now apply (gi_incl _ _ _ I)].
        * intros v Hv. cbn. unfold upd. destruct (Nat.eqb_spec v u) as [->|n]; [split; [now left | easy]|].
          rewrite (gi_gray _ _ _ I v Hv : m v = Gray <-> In v K). split; [tauto | intros [?|?]; [congruence | assumption]].
        * exact (gi_yes _ _ _ I).
        * intro Hb. destruct (gi_no _ _ _ I Hb) as (F & HF & EF). exists F. split; [assumption|].
          intro v. rewrite EF. cbn. split; [|tauto]. intros (A & B). split; [tauto|]. intros [->|?]; contradiction.
      + intros _ x (e & He & <-). right. now exists e.
    - intros u D K [m b] I Hu Hn HK _ Hx. cbn -[targets_first]. split; [|easy]. split.
      + intros x Hx'. apply (gi_incl _ _ _ I). now right.
      + intros v Hv. cbn. unfold upd. destruct (Nat.eqb_spec v u) as [->|n]; [split; [easy | contradiction]|].
        rewrite (gi_gray _ _ _ I v Hv : m v = Gray <-> In v (u :: K)). cbn. split; [intros [?|?]; [congruence | assumption] | tauto].
      + exact (gi_yes _ _ _ I).
      + intro Hb. destruct (gi_no _ _ _ I Hb) as (F & HF & EF). exists (F ++ [u]). split.
        * apply targets_first_snoc; [assumption|]. intros x Ha. apply EF.
          destruct (Hx Hb x Ha) as [?|(e & [] & _)]. assumption.
        * intro v. rewrite in_app_iff, EF. cbn. split.
          -- intros [(A & B)|[<-|[]]]; [tauto|]. split; [apply (gi_incl _ _ _ I); now left | assumption].
          -- intros (A & B). destruct (Nat.eq_dec u v); tauto.
    - intros u e es D t D' Hi _ IH K [m b] I Hu Hn HK Hes Hx.
      assert (In e (g_out g u)) as He by (apply Hes; now left). destruct (wf _ _ He) as (E1 & E2).
      assert (arc g u (e_tgt e)) as Ha by now exists e.
      destruct (IH K (m, b || is_gray (m (e_tgt e)))) as (A & B).
      + split; [exact (gi_incl _ _ _ I) | exact (gi_gray _ _ _ I) | |].
        * cbn. intro H. apply orb_true_iff in H. destruct H as [H|H]; [now apply (gi_yes _ _ _ I)|].
          assert (In (e_tgt e) (u :: K)) as Hk.
          { apply (gi_gray _ _ _ I _ E2). cbn. now destruct (m (e_tgt e)). }
          exists u, (e_tgt e). split; [assumption|]. destruct Hk as [<-|Hk]; [apply reach_refl | now apply HK].
        * cbn. intro H. apply orb_false_iff in H. now apply (gi_no _ _ _ I).
      + assumption.
      + assumption.
      + assumption.
      + intros x Hx'. apply Hes. now right.
      + cbn [snd]. intros H x Hx'. apply orb_false_iff in H. destruct H as (Hb & Hg).
        destruct (Hx Hb x Hx') as [?|(e' & [<-|He'] & E)]; [tauto | | right; now exists e'].
        left. subst x. split; [assumption|]. rewrite <- (gi_gray _ _ _ I _ E2). cbn. now destruct (m (e_tgt e)).
      + split; [exact A|]. intro Hb. apply B. cbn in *. now rewrite Hb.
    - intros u e es D t1 D1 t2 D' Hni H1 IH1 H2 IH2 K s I Hu Hn HK Hes Hx.
      assert (In e (g_out g u)) as He by (apply Hes; now left). destruct (wf _ _ He) as (E1 & E2).
      assert (arc g u (e_tgt e)) as Ha by now exists e.
      assert (v_step gray_visitor (ETreeStart e) s = s) as Es by now destruct s.
      assert (forall s, v_step gray_visitor (ETreeFinish e) s = s) as Ef by now intros [].
      change (run gray_visitor (ETreeStart e :: t1 ++ ETreeFinish e :: t2) s)
        with (run gray_visitor (t1 ++ ETreeFinish e :: t2) (v_step gray_visitor (ETreeStart e) s)).
      rewrite Es, run_app. change (run gray_visitor (ETreeFinish e :: t2) (run gray_visitor t1 s))
        with (run gray_visitor t2 (v_step gray_visitor (ETreeFinish e) (run gray_visitor t1 s))). rewrite Ef.
      destruct (IH1 (u :: K) s I E2 Hni) as (A1 & B1).
      { intros w [<-|Hw]; [now apply reach_arc | eapply reach_step; eauto]. }
      destruct (IH2 K (run gray_visitor t1 s) A1 Hu Hn HK) as (A2 & B2).
      { intros x Hx'. apply Hes. now right. }
      { intros Hb x Hx'. assert (snd s = false) as Hb0 by (destruct (snd s); [now rewrite B1 in Hb | reflexivity]).
        destruct (Hx Hb0 x Hx') as [(A & B)|(e' & [<-|He'] & E)]; [| | right; now exists e'].
        - left. split; [now apply (visit_incl _ _ _ _ _ H1) | assumption].
        - left. subst x. split; [apply (visit_in _ _ _ _ _ _ H1); left; now apply (visit_discovers_root _ _ _ _ _ H1)|].
          intro X. now apply Hni, (gi_incl _ _ _ I). }
      split; [exact A2 | auto].
  Qed.
  Lemma gray_forest rs D t D' : forest g rs D t D' -> (forall r, In r rs -> r < g_n g) ->
    forall s, gray_inv D [] s -> gray_inv D' [] (run gray_visitor t s).
  Proof.
    induction 1 as [D|r rs D t D' Hi F IH|r rs D t1 D1 t2 D' Hn H1 H2 IH]; intros L s I; [exact I | |].
    - apply IH; [intros; apply L; now right | assumption].
    - assert (v_step gray_visitor (ESearchStart r) s = s) as Es by now destruct s.
      assert (forall s, v_step gray_visitor (ESearchFinish (Some r)) s = s) as Ef by now intros [].
      change (run gray_visitor (ESearchStart r :: t1 ++ ESearchFinish (Some r) :: t2) s)
        with (run gray_visitor (t1 ++ ESearchFinish (Some r) :: t2) (v_step gray_visitor (ESearchStart r) s)).
      rewrite Es, run_app. change (run gray_visitor (ESearchFinish (Some r) :: t2) (run gray_visitor t1 s))
        with (run gray_visitor t2 (v_step gray_visitor (ESearchFinish (Some r)) (run gray_visitor t1 s))). rewrite Ef.
      apply IH; [intros; apply L; now right|].
      apply (proj1 gray_visit_scan _ _ _ _ H1 [] s I); [apply L; now left | assumption | easy].
  Qed.
End Cycles.
Theorem dfs_gray_cycle g m : wf_graph g ->
  exists k m' b, (forall f, k <= f -> dfs_all gray_visitor g always_false f (m, false) = Ok (m', b)) /\
    (b = true <-> has_cycle g).
Proof.
  intros wf.
  assert (forall us m b, fold_left (fun s u => v_step gray_visitor (EInit u) s) us (m, b) =
    (fold_left (fun s u => v_step color_visitor (EInit u) s) us m, b)) as Ei.
  { induction us as [|u us IH]; intros m0 b; [reflexivity | apply IH]. }
  assert (init_all gray_visitor g (m, false) = (init_all color_visitor g m, false)) as E0 by apply Ei.
  destruct (dfs_all_run gray_visitor g _ wf (gray_disciplined g) (m, false)) as (t & D' & F & R & k & E).
  { rewrite E0. apply color_init. }
  cbv zeta in E. rewrite E0 in *. assert (gray_inv g [] [] (init_all color_visitor g m, false)) as I0.
  { split; try easy.
    - intros v Hv. cbn. rewrite color_init_white by assumption. easy.
    - intros _. exists []. split; [|easy]. intros [|? a] w b Ex; discriminate Ex. }
  pose proof (gray_forest g wf _ _ _ _ F (fun r Hr => proj1 (in_vertices g r) Hr) _ I0) as I.
  destruct (run gray_visitor t (init_all color_visitor g m, false)) as (m', b).
  exists k, m', b. split; [exact E|]. split; [exact (gi_yes _ _ _ _ I)|].
  intros (u & v & Ha & Rv). destruct b; [reflexivity|]. destruct (gi_no _ _ _ _ I eq_refl) as (L & HL & EL).
  exfalso. apply (targets_first_no_cycle g L u v HL); [|assumption | assumption].
  apply EL. split; [|easy]. apply (forest_roots g _ _ _ _ _ F), in_vertices.
  inversion Rv as [|y z Ry (e & He & Et)]; subst.
  - destruct Ha as (e & He & <-). now apply (wf _ _ He).
  - now apply (wf _ _ He).
Qed.

(** ** Predecessor edges *)
(** Edges recorded in [pe] lead from [r] to [v] in [n] steps, inside of [D]. *)
Inductive edge_chain (g : graph) (D : nat -> Prop) (pe : nat -> option edge) (r : nat) : nat -> nat -> Prop :=
| ec_root : D r -> edge_chain g D pe r 0 r
| ec_step n e : D (e_tgt e) -> pe (e_tgt e) = Some e -> In e (g_out g (e_src e)) ->
    edge_chain g D pe r n (e_src e) -> edge_chain g D pe r (S n) (e_tgt e).
Lemma edge_chain_in g D pe r n v : edge_chain g D pe r n v -> D v.
Proof. now destruct 1. Qed.
Lemma edge_chain_add g D pe r n v e : edge_chain g (fun x => In x D) pe r n v -> ~ In (e_tgt e) D ->
  edge_chain g (fun x => In x (e_tgt e :: D)) (upd pe (e_tgt e) (Some e)) r n v.
Proof.
  intros H Hn. induction H as [Hr|n e' Hd Hp Hi H IH]; [constructor; now right|].
  constructor; auto; [now right|]. rewrite upd_other; [assumption|]. intro X. apply Hn. now rewrite <- X.
Qed.
Lemma edge_chain_weaken g D pe r n v : edge_chain g D pe r n v -> edge_chain g (fun _ => True) pe r n v.
Proof. induction 1; constructor; auto. Qed.

Lemma bfs_es_pred_edges g src pe0 u es D t qn D' : wf_graph g -> bfs_es es D t qn D' -> incl es (g_out g u) -> In u D ->
  incl src D -> forall m pe,
  (forall v, In v D -> exists r n, In r src /\ edge_chain g (fun x => In x D) pe r n v /\ m v = Z.of_nat n) ->
  (forall v, ~ In v D \/ In v src -> pe v = pe0 v) ->
  (forall v, In v D' -> exists r n, In r src /\
     edge_chain g (fun x => In x D') (crun predecessor_edge_recorder t pe) r n v /\ crun distance_recorder t m v = Z.of_nat n) /\
  (forall v, ~ In v D' \/ In v src -> crun predecessor_edge_recorder t pe v = pe0 v).
Proof.
  intros wf. induction 1 as [D|e es D t qn D' Hi H IH|e es D t qn D' Hn H IH]; intros Hs Hu Hsrc m pe Hc Ho.
  - now split.
  - apply (IH ltac:(intros x Hx; apply Hs; now right) Hu Hsrc m pe Hc Ho).
  - assert (In e (g_out g u)) as He by (apply Hs; now left). destruct (wf _ _ He) as (E1 & E2).
    apply (IH ltac:(intros x Hx; apply Hs; now right) (or_intror Hu) ltac:(intros x Hx; right; now apply Hsrc)
      (upd m (e_tgt e) (m (e_src e) + 1)%Z) (upd pe (e_tgt e) (Some e))).
    + intros v [<-|Hv].
      * destruct (Hc (e_src e)) as (r & n & Hr & C & M); [now rewrite E1|].
        exists r, (S n). split; [assumption|]. rewrite upd_same. split; [|lia].
        constructor; [now left | apply upd_same | now rewrite E1 | now apply edge_chain_add].
      * destruct (Hc v Hv) as (r & n & Hr & C & M). exists r, n. split; [assumption|].
        rewrite upd_other by (intros ->; contradiction). split; [now apply edge_chain_add | assumption].
    + intros v Hv. rewrite upd_other.
      * apply Ho. cbn in Hv. tauto.
      * intros ->. destruct Hv as [Hv|Hv]; [apply Hv; now left | now apply Hn, Hsrc].
Qed.
Lemma bfs_q_pred_edges g src pe0 q D t D' : wf_graph g -> bfs_q g q D t D' -> (forall v, In v q -> In v D) -> incl src D -> forall m pe,
  (forall v, In v D -> exists r n, In r src /\ edge_chain g (fun x => In x D) pe r n v /\ m v = Z.of_nat n) ->
  (forall v, ~ In v D \/ In v src -> pe v = pe0 v) ->
  (forall v, In v D' -> exists r n, In r src /\
     edge_chain g (fun x => In x D') (crun predecessor_edge_recorder t pe) r n v /\ crun distance_recorder t m v = Z.of_nat n) /\
  (forall v, ~ In v D' \/ In v src -> crun predecessor_edge_recorder t pe v = pe0 v).
Proof.
  intros wf. induction 1 as [D|u q D t1 qn D1 t2 D' H1 H2 IH]; intros Hq Hsrc m pe Hc Ho; [now split|].
  change (crun predecessor_edge_recorder (EStart u :: t1 ++ EFinish u :: t2) pe) with (crun predecessor_edge_recorder (t1 ++ EFinish u :: t2) pe).
  change (crun distance_recorder (EStart u :: t1 ++ EFinish u :: t2) m) with (crun distance_recorder (t1 ++ EFinish u :: t2) m).
  rewrite !crun_app.
  destruct (bfs_es_pred_edges g src pe0 u _ _ _ _ _ wf H1 (incl_refl _) (Hq u (or_introl eq_refl)) Hsrc m pe Hc Ho) as (A & B).
  destruct (bfs_es_facts _ _ _ _ _ H1) as (A1 & _).
  apply (IH ltac:(intros v Hv; rewrite A1, in_app_iff, <- in_rev; apply in_app_iff in Hv; destruct Hv; [right; apply Hq; now right | tauto])
    ltac:(intros v Hv; rewrite A1, in_app_iff; right; now apply Hsrc) _ _ A B).
Qed.
Lemma source_crun_pred_edge src pe : crun predecessor_edge_recorder (source_events src) pe = pe.
Proof. induction src as [|a l IH]; [reflexivity | exact IH]. Qed.
Lemma init_crun_pred_edge us pe : crun predecessor_edge_recorder (map EInit us) pe = pe.
Proof. induction us as [|a l IH]; [reflexivity | exact IH]. Qed.
Definition edge_path (g : graph) (pe : nat -> option edge) := edge_chain g (fun _ => True) pe.
Theorem bfs_predecessor_edges g src pe fl : wf_graph g -> NoDup src -> (forall v, In v src -> v < g_n g) ->
  exists k pe' fl', (forall f, k <= f -> bfs (with_flag predecessor_edge_recorder) g always_false f (pe, fl) src = Ok (pe', fl')) /\
    (forall v s, In s src -> reach g s v -> exists r n, In r src /\ edge_path g pe' r n v /\ distance_is g src v n) /\
    (forall v, In v src \/ ~ (exists s, In s src /\ reach g s v) -> pe' v = pe v).
Proof.
  intros wf N L. destruct (bfs_events g src wf N L) as (t & D' & H & E).
  destruct (E _ predecessor_edge_recorder pe fl eq_refl) as (fl' & k & E'). exists k. eexists _, fl'. split; [exact E'|]. clear E E'.
  unfold init_events. rewrite !crun_app, init_crun_pred_edge, source_crun_pred_edge.
  destruct (bfs_distance g wf src t D' (fun _ => 0%Z) N H) as (B & _). cbv zeta in B. rewrite crun_app in B.
  destruct (bfs_q_pred_edges g src pe src (rev src) t D' wf H (fun v Hv => proj1 (in_rev src v) Hv)
    (fun v Hv => proj1 (in_rev src v) Hv) (crun distance_recorder (source_events src) (fun _ => 0%Z)) pe) as (A1 & A2).
  - intros v Hv. assert (In v src) by now apply in_rev. exists v, 0. split; [assumption|]. split; [now constructor|].
    now apply (j_src _ _ _ _ _ (dist_sources g src (fun _ => 0%Z) N)).
  - reflexivity.
  - split.
    + intros v s Hs R. assert (In v D') as Hi by (apply (bfs_q_exact g src t D' v H); now exists s).
      destruct (A1 v Hi) as (r & n & Hr & C & M). exists r, n. split; [assumption|].
      split; [now apply edge_chain_weaken in C|]. destruct (B v Hi) as (_ & X). now rewrite M, Nat2Z.id in X.
    + intros v Hv. apply A2. rewrite (bfs_q_exact g src t D' v H). tauto.
Qed.
Theorem dfs_predecessor_edges g u pe fl : wf_graph g -> u < g_n g ->
  exists k pe' fl', (forall f, k <= f -> dfs_from (with_flag predecessor_edge_recorder) g always_false f (pe, fl) u = Ok (pe', fl')) /\
    (forall v, reach g u v -> exists n, edge_path g pe' u n v) /\
    (forall v, v = u \/ ~ reach g u v -> pe' v = pe v).
Proof.
  intros wf Hu. destruct (dfs_from_events g u wf Hu) as (t & D' & Hv & E).
  destruct (E _ predecessor_edge_recorder pe fl eq_refl) as (fl' & k & E'). exists k. eexists _, fl'. split; [exact E'|]. clear E E'.
  unfold init_events. rewrite !crun_app, init_crun_pred_edge.
  change (crun predecessor_edge_recorder (ESearchStart u :: t ++ [ESearchFinish (Some u)]) pe)
    with (crun predecessor_edge_recorder (t ++ [ESearchFinish (Some u)]) pe). rewrite crun_app.
  change (crun predecessor_edge_recorder [ESearchFinish (Some u)]) with (fun s : nat -> option edge => s). cbv beta.
  assert (forall v, In v D' <-> reach g u v) as Rd.
  { intro v. rewrite (visit_in _ _ _ _ _ _ Hv), (white_path g u [] t D' v Hv), reach_avoid_nil by easy. cbn. tauto. }
  set (J := fun D (q : nat -> option edge) => In u D /\ (forall v, ~ In v D \/ v = u -> q v = pe v) /\
    forall v, In v D -> exists n, edge_chain g (fun x => In x D) q u n v).
  assert (J D' (crun predecessor_edge_recorder t pe)) as (_ & A & B).
  { refine (proj1 (visit_scan_stable (to_visitor predecessor_edge_recorder) g J wf _ _ _ _) u [] t D' Hv _ _); try (intros; assumption).
    - intros D q e (A & B & C) He Hs Ht Hn. change (J (e_tgt e :: D) (upd q (e_tgt e) (Some e))).
      split; [now right|]. split.
      + intros v Hx. rewrite upd_other; [apply B; cbn in Hx; tauto|].
        intros ->. destruct Hx as [Hx|Hx]; [apply Hx; now left | apply Hn; now rewrite Hx].
      + intros v [<-|Hx].
        * destruct (C _ Hs) as (n & Cn). exists (S n).
          constructor; [now left | apply upd_same | assumption | now apply edge_chain_add].
        * destruct (C v Hx) as (n & Cn). exists n. now apply edge_chain_add.
    - split; [now left|]. split; [reflexivity|]. intros v [<-|[]]. exists 0. constructor. now left. }
  split.
  - intros v R. destruct (B v) as (n & C); [now apply Rd|]. exists n. now apply edge_chain_weaken in C.
  - intros v Hx. apply A. rewrite Rd. tauto.
Qed.
