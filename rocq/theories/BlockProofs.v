(** Labels of edges given by find_articulation_points_and_components. *)
From Coq Require Import ZArith List Bool PeanoNat Lia.
From Verif Require Import Outcome GraphModel DfsProofs DfsResults TarjanProofs BridgeProofs ArticProofs.
Import ListNotations.
Local Open Scope Z_scope.

Lemma pop_while_spec pred n : forall st m, let '(m', st') := ap_pop_while pred m n st in
  incl st' st /\ (forall e, In e st -> In e st' \/ m' (e_id e) = n) /\ (forall i, m' i = m i \/ m' i = n)
  /\ ((forall e, In e st -> pred e = true) -> st' = []).
Proof.
  induction st as [|e st IH]; intros m; cbn [ap_pop_while].
  - repeat split; [apply incl_refl | contradiction | auto].
  - destruct (pred e) eqn:E.
    + specialize (IH (upd m (e_id e) n)). destruct (ap_pop_while pred (upd m (e_id e) n) n st) as (m' & st').
      destruct IH as (A & B & C & D). split; [now apply incl_tl|]. split; [|split].
      * intros x [<-|Hx]; [|auto]. right. destruct (C (e_id e)) as [->| ->]; [apply upd_same | reflexivity].
      * intros i. destruct (C i) as [->| ->]; [|now right]. unfold upd. destruct (i =? e_id e)%nat; auto.
      * intros H. apply D. intros x Hx. apply H. now right.
    + split; [apply incl_refl|]. split; [auto|]. split; [auto|]. intros H. rewrite (H e) in E; [discriminate | now left].
Qed.

(** The edge has a label or will get one. *)
Definition labelled (s : artic) (e : edge) : Prop := 0 <= ap_cmap s (e_id e) < ap_cn s.
Definition covered (s : artic) (e : edge) : Prop := In e (ap_stack s) \/ labelled s e.
Record tinv (D : list nat) (s : artic) : Prop := {
  ti_cn : 0 <= ap_cn s;
  ti_now v : In v D -> ap_time s v <= ap_now s;
  ti_inj v w : In v D -> In w D -> ap_time s v = ap_time s w -> v = w }.
Section Block.
  Variable g : graph.
  Hypothesis wf : wf_graph g.
  Hypothesis sym : symmetric g.
  Local Notation V := artic_visitor.
  (** The vertices of earlier searches and the time of the root of this one. *)
  Variable D0 : list nat.
  Hypothesis closed0 : forall b v, In b D0 -> arc g b v -> In v D0.
  Variable tr : Z.
  Record binv (D : list nat) (s : artic) : Prop := {
    bi_t : tinv D s;
    bi_new v : In v D -> ~ In v D0 -> tr <= ap_time s v /\ tr <= ap_low s v;
    bi_stack e : In e (ap_stack s) -> (In (e_src e) D /\ ~ In (e_src e) D0) /\ (In (e_tgt e) D /\ ~ In (e_tgt e) D0) }.
  Definition keeps (D : list nat) (s s' : artic) : Prop :=
    (forall v, In v D -> ap_time s' v = ap_time s v) /\ ap_now s <= ap_now s' /\ forall e, covered s e -> covered s' e.
  Lemma keeps_trans D D' s s' s'' : incl D D' -> keeps D s s' -> keeps D' s' s'' -> keeps D s s''.
  Proof. intros I (A & B & C) (A' & B' & C'). split; [|split; [lia | auto]]. intros v Hv. rewrite A' by auto. auto. Qed.
  Lemma keeps_refl D s : keeps D s s. Proof. repeat split; auto. lia. Qed.
  Lemma start_ok u D s : binv D s -> ~ In u D -> ~ In u D0 -> tr <= ap_now s + 1 ->
    binv (u :: D) (v_step V (EStart u) s) /\ keeps D s (v_step V (EStart u) s).
  Proof.
    intros [[A1 A2 A3] B C] Hu Hu0 Ht. set (s1 := v_step V (EStart u) s).
    assert (T1 : ap_time s1 u = ap_now s + 1) by apply upd_same.
    assert (L1 : ap_low s1 u = ap_now s + 1) by apply upd_same.
    assert (T2 : forall v, v <> u -> ap_time s1 v = ap_time s v) by (intros; now apply upd_other).
    assert (L2 : forall v, v <> u -> ap_low s1 v = ap_low s v) by (intros; now apply upd_other).
    assert (N : forall v, In v D -> v <> u) by (intros v Hv ->; contradiction).
    change (ap_now s1) with (ap_now s + 1) in *. split.
    - split.
      + split; [exact A1 | |].
        * intros v [<-|Hv]; change (ap_now s1) with (ap_now s + 1); [lia|]. rewrite T2 by auto. specialize (A2 v Hv). lia.
        * intros v w [<-|Hv] [<-|Hw] E; auto.
          -- rewrite T1, T2 in E by auto. specialize (A2 w Hw). lia.
          -- rewrite T1, (T2 v) in E by auto. specialize (A2 v Hv). lia.
          -- rewrite (T2 v), (T2 w) in E by auto. auto.
      + intros v [<-|Hv] Hn; [lia|]. rewrite T2, L2 by auto. auto.
      + intros e He. destruct (C e He) as ((? & ?) & (? & ?)). repeat split; auto; now right.
    - split; [intros; apply T2; auto|]. split; [change (ap_now s1) with (ap_now s + 1); lia | auto].
  Qed.
  Lemma non_tree_ok e D s : binv D s -> In (e_src e) D -> ~ In (e_src e) D0 -> In (e_tgt e) D -> ~ In (e_tgt e) D0 ->
    let s1 := v_step V (ENonTree e) s in
    binv D s1 /\ keeps D s s1 /\ (ap_time s (e_tgt e) < ap_time s (e_src e) -> covered s1 e).
  Proof.
    intros [[A1 A2 A3] B C] Hs Hs0 Ht Ht0 s1. destruct (B _ Ht Ht0) as [T1 T2].
    assert (S1 : forall x, In x (ap_stack s1) -> x = e \/ In x (ap_stack s)).
    { intros x. cbn. destruct (ap_time s (e_tgt e) <? ap_time s (e_src e)); [intros [<-|]; auto | auto]. }
    assert (S2 : incl (ap_stack s) (ap_stack s1)).
    { intros x. cbn. destruct (ap_time s (e_tgt e) <? ap_time s (e_src e)); [now right | auto]. }
    split; [|split].
    - split.
      + split; auto.
      + intros v Hv Hn. destruct (B v Hv Hn) as [P Q]. split; [exact P|]. cbn.
        destruct (ap_time s (e_tgt e) <? ap_low s (e_src e)); [|exact Q]. unfold upd. destruct (v =? e_src e)%nat; auto.
      + intros x Hx. apply S1 in Hx as [->|Hx]; auto.
    - split; [auto|]. split; [cbn; lia|]. intros x [Hx|Hx]; [left; auto | right; exact Hx].
    - intros L. left. cbn. apply Z.ltb_lt in L as ->. now left.
  Qed.
  Lemma tree_finish_ok e D s : binv D s -> let s1 := v_step V (ETreeFinish e) s in
    binv D s1 /\ keeps D s s1 /\ (ap_time s (e_src e) = tr -> tr <= ap_low s (e_tgt e) -> ap_stack s1 = []).
  Proof.
    intros [[A1 A2 A3] B C] s1. set (p := fun x => (ap_time s (e_src e) <=? ap_time s (e_src x)) && (ap_time s (e_src e) <=? ap_time s (e_tgt x))).
    pose proof (pop_while_spec p (ap_cn s) (ap_stack s) (ap_cmap s)) as P.
    unfold s1. cbn [v_step artic_visitor to_visitor c_step articulation_finder]. fold p.
    destruct (ap_pop_while p (ap_cmap s) (ap_cn s) (ap_stack s)) as (m & st). destruct P as (P1 & P2 & P3 & P4).
    destruct (Z.leb_spec (ap_time s (e_src e)) (ap_low s (e_tgt e))) as [L|L].
    - split; [|split].
      + split; [split; cbn; auto; lia | exact B|]. cbn [ap_stack]. auto.
      + split; [auto|]. split; [cbn; lia|]. intros x [Hx|Hx].
        * destruct (P2 x Hx) as [Q|Q]; [now left|]. right. unfold labelled. cbn [ap_cmap ap_cn]. rewrite Q. lia.
        * right. unfold labelled in *. cbn [ap_cmap ap_cn]. destruct (P3 (e_id x)) as [-> | ->]; lia.
      + intros R _. cbn [ap_stack]. apply P4. intros x Hx. destruct (C x Hx) as ((S1 & S2) & (S3 & S4)). unfold p. rewrite R.
        destruct (B _ S1 S2), (B _ S3 S4). apply andb_true_iff. rewrite !Z.leb_le. auto.
    - split; [split; auto; split; auto|]. split; [apply keeps_refl|]. intros R Q. lia.
  Qed.
  Lemma visit_scan_block :
    (forall u D t D', visit g u D t D' -> forall s, binv D s -> incl D0 D -> ~ In u D -> tr <= ap_now s + 1 ->
       let s' := run V t s in binv D' s' /\ keeps D s s' /\ ap_now s < ap_time s' u
       /\ forall x e, In x (discovers t) -> In e (g_out g x) -> ap_time s' (e_tgt e) < ap_time s' x -> covered s' e) /\
    (forall u es D t D', scan_es g u es D t D' -> incl es (g_out g u) -> forall s, binv D s -> incl D0 D -> In u D -> ~ In u D0 -> tr <= ap_now s + 1 ->
       let s' := run V t s in binv D' s' /\ keeps D s s'
       /\ (forall e, In e es -> ap_time s' (e_tgt e) < ap_time s' u -> covered s' e)
       /\ forall x e, In x (discovers t) -> In e (g_out g x) -> ap_time s' (e_tgt e) < ap_time s' x -> covered s' e).
  Proof.
    apply visit_scan_ind.
    - intros u D t D' H IH s I I0 Hu Ht. cbv zeta.
      change (run V (EDiscover u :: EStart u :: t) s) with (run V t (v_step V (EStart u) s)).
      assert (Hu0 : ~ In u D0) by auto.
      destruct (start_ok u D s I Hu Hu0 Ht) as (I1 & K1). set (s1 := v_step V (EStart u) s) in *.
      destruct (IH (incl_refl _) s1 I1) as (A & B & C & E); auto.
      { now apply incl_tl. } { now left. } { change (ap_now s1) with (ap_now s + 1). lia. }
      split; [exact A|]. split; [apply (keeps_trans D (u :: D) s s1); auto; now apply incl_tl, incl_refl|]. split.
      + destruct B as (B & _). rewrite B by now left. change (ap_time s1 u) with (upd (ap_time s) u (ap_now s + 1) u). rewrite upd_same. lia.
      + intros x e Hx. cbn in Hx. destruct Hx as [<-|Hx]; [intros He; now apply C | now apply E].
    - intros u D _ s I I0 Hu Hu0 Ht. change (run V [EFinish u] s) with s. split; [exact I|]. split; [apply keeps_refl|]. split; [contradiction|]. contradiction.
    - intros u e es D t D' Hi H IH Hes s I I0 Hu Hu0 Ht. cbv zeta.
      change (run V (ENonTree e :: t) s) with (run V t (v_step V (ENonTree e) s)). set (s1 := v_step V (ENonTree e) s).
      assert (He : In e (g_out g u)) by (apply Hes; now left). destruct (wf _ _ He) as (E1 & E2).
      assert (Ht0 : ~ In (e_tgt e) D0) by (intros Q; apply Hu0, (closed0 (e_tgt e)); [exact Q | apply sym; now exists e]).
      destruct (non_tree_ok e D s I) as (I1 & K1 & C1); [now rewrite E1 | now rewrite E1 | auto | auto |].
      fold s1 in I1, K1, C1.
      destruct (IH (fun x Hx => Hes x (or_intror Hx)) s1 I1) as (A & B & C & E); auto.
      split; [exact A|]. split; [now apply (keeps_trans D D s s1); [apply incl_refl|..]|]. split; [|exact E].
      intros x [<-|Hx] L; [|now apply C]. destruct B as (B1 & _ & B2). apply B2, C1. rewrite E1. rewrite !B1 in L by auto. exact L.
    - intros u e es D t1 D1 t2 D' Hn H1 IH1 H2 IH2 Hes s I I0 Hu Hu0 Ht. cbv zeta.
      assert (He : In e (g_out g u)) by (apply Hes; now left). destruct (wf _ _ He) as (E1 & E2).
      assert (run V (ETreeStart e :: t1 ++ ETreeFinish e :: t2) s = run V t2 (v_step V (ETreeFinish e) (run V t1 s))) as ->.
      { change (run V (t1 ++ ETreeFinish e :: t2) s = run V t2 (v_step V (ETreeFinish e) (run V t1 s))). now rewrite run_app. }
      destruct (IH1 s I I0 Hn Ht) as (A1 & K1 & T1 & C1). set (s1 := run V t1 s) in *.
      destruct (tree_finish_ok e D1 s1 A1) as (A2 & K2 & _). set (s2 := v_step V (ETreeFinish e) s1) in *.
      pose proof (visit_incl _ _ _ _ _ H1) as ID.
      assert (KK : keeps D s s2) by now apply (keeps_trans D D1 s s1).
      destruct (IH2 (fun x Hx => Hes x (or_intror Hx)) s2 A2) as (A & B & C & E); auto.
      { intros x Hx. auto. } { destruct KK. lia. }
      split; [exact A|]. split; [apply (keeps_trans D D1 s s2); auto|]. split.
      + intros x [<-|Hx] L; [|now apply C]. exfalso.
        destruct B as (B & _). assert (In (e_tgt e) D1) by (apply (visit_in _ _ _ _ _ _ H1); left; now apply (visit_discovers_root _ _ _ _ _ H1)).
        rewrite !B in L by auto. destruct K2 as (K2 & _). rewrite !K2 in L by auto. destruct K1 as (K1 & _). rewrite (K1 u) in L by auto.
        pose proof (ti_now _ _ (bi_t _ _ I) u Hu). lia.
      + intros x y Hx. cbn in Hx. change (flat_map _ (t1 ++ ETreeFinish e :: t2)) with (discovers (t1 ++ ETreeFinish e :: t2)) in Hx.
        rewrite discovers_app in Hx. apply in_app_iff in Hx as [Hx|Hx]; [|now apply E].
        intros Hy L. destruct B as (B & _ & B2). apply B2. destruct K2 as (K2 & _ & K3). apply K3.
        assert (In x D1) by (apply (visit_in _ _ _ _ _ _ H1); now left).
        assert (In (e_tgt y) D1) by (apply (proj1 (visit_scan_closed g) _ _ _ _ H1 x); [auto | now exists y]).
        apply (C1 x y Hx Hy). rewrite !B in L by auto. rewrite !K2 in L by auto. exact L.
  Qed.
  (** Nothing is left after the edges of the root. *)
  Lemma scan_root r : forall es D t D', scan_es g r es D t D' -> incl es (g_out g r) -> forall s, binv D s -> incl D0 D -> In r D -> ~ In r D0 ->
    tr <= ap_now s + 1 -> ap_time s r = tr -> ap_stack s = [] -> ap_stack (run V t s) = [].
  Proof.
    intros es D t D' H. remember r as u eqn:Eu. induction H as [u D|u e es D t D' Hi H IH|u e es D t1 D1 t2 D' Hn H1 H2 IH2];
      intros Hes s I I0 Hu Hu0 Ht Hr S0; subst u.
    - exact S0.
    - assert (He : In e (g_out g r)) by (apply Hes; now left). destruct (wf _ _ He) as (E1 & E2).
      assert (Ht0 : ~ In (e_tgt e) D0) by (intros Q; apply Hu0, (closed0 (e_tgt e)); [exact Q | apply sym; now exists e]).
      destruct (non_tree_ok e D s I) as (I1 & (K1 & K2 & _) & _); [now rewrite E1 | now rewrite E1 | auto | auto |].
      change (run V (ENonTree e :: t) s) with (run V t (v_step V (ENonTree e) s)). apply IH; auto.
      + intros x Hx. apply Hes. now right.
      + cbn. rewrite E1, Hr, S0. destruct (bi_new _ _ I _ Hi Ht0) as [Q _]. destruct (Z.ltb_spec (ap_time s (e_tgt e)) tr); [lia | reflexivity].
    - assert (He : In e (g_out g r)) by (apply Hes; now left). destruct (wf _ _ He) as (E1 & E2).
      assert (run V (ETreeStart e :: t1 ++ ETreeFinish e :: t2) s = run V t2 (v_step V (ETreeFinish e) (run V t1 s))) as ->.
      { change (run V (t1 ++ ETreeFinish e :: t2) s = run V t2 (v_step V (ETreeFinish e) (run V t1 s))). now rewrite run_app. }
      destruct (proj1 visit_scan_block _ _ _ _ H1 s I I0 Hn Ht) as (A1 & K1 & _). set (s1 := run V t1 s) in *.
      destruct (tree_finish_ok e D1 s1 A1) as (A2 & K2 & F). pose proof (visit_incl _ _ _ _ _ H1) as ID.
      assert (T1 : ap_time s1 r = tr) by (destruct K1 as (K1 & _); rewrite K1 by auto; exact Hr).
      apply IH2; auto.
      + intros x Hx. apply Hes. now right.
      + intros x Hx. auto.
      + destruct K1 as (_ & ? & _), K2 as (_ & ? & _). lia.
      + destruct K2 as (K2 & _). rewrite K2; auto.
      + apply F; [now rewrite E1|]. apply (bi_new _ _ A1).
        * apply (visit_in _ _ _ _ _ _ H1). left. now apply (visit_discovers_root _ _ _ _ _ H1).
        * intros Q. apply Hn. auto.
  Qed.
End Block.

Lemma forest_block g : wf_graph g -> symmetric g -> forall rs D t D', forest g rs D t D' ->
  (forall b v, In b D -> arc g b v -> In v D) -> forall s, tinv D s -> ap_stack s = [] ->
  (forall x e, In x D -> In e (g_out g x) -> ap_time s (e_tgt e) < ap_time s x -> labelled s e) ->
  let s' := run artic_visitor t s in
  tinv D' s' /\ (forall x e, In x D' -> In e (g_out g x) -> ap_time s' (e_tgt e) < ap_time s' x -> labelled s' e)
  /\ forall b v, In b D' -> arc g b v -> In v D'.
Proof.
  intros wf sym. induction 1 as [D|r rs D t D' Hi F IH|r rs D t1 D1 t2 D' Hn H1 H2 IH]; intros Cl s I S0 Lb; [split; auto | apply IH; auto |].
  set (V := artic_visitor). set (s0 := v_step V (ESearchStart r) s).
  assert (run V (ESearchStart r :: t1 ++ ESearchFinish (Some r) :: t2) s = run V t2 (v_step V (ESearchFinish (Some r)) (run V t1 s0))) as ->.
  { change (run V (t1 ++ ESearchFinish (Some r) :: t2) s0 = run V t2 (v_step V (ESearchFinish (Some r)) (run V t1 s0))). now rewrite run_app. }
  set (tr := ap_now s + 1).
  assert (I0 : binv D tr D s0).
  { destruct I as [A B C]. split; [split; auto | intros; contradiction | cbn; rewrite S0; contradiction]. }
  destruct (proj1 (visit_scan_block g wf sym D Cl tr) r D t1 D1 H1 s0 I0 (incl_refl _) Hn ltac:(cbn; lia)) as (A1 & (K1 & K2 & K3) & T1 & C1).
  assert (S1 : ap_stack (run V t1 s0) = []).
  { inversion H1 as [u D2 t D3 H]; subst.
    change (run V (EDiscover r :: EStart r :: t) s0) with (run V t (v_step V (EStart r) s0)).
    destruct (start_ok D tr r D s0 I0 Hn Hn ltac:(cbn; lia)) as (I1 & _).
    apply (scan_root g wf sym D Cl tr r _ _ _ _ H (incl_refl _) _ I1); auto; try (now left).
    - now apply incl_tl, incl_refl.
    - cbn. lia.
    - cbn. apply upd_same. }
  set (s1 := run V t1 s0) in *. set (s2 := v_step V (ESearchFinish (Some r)) s1).
  assert (E : ap_stack s2 = ap_stack s1 /\ ap_cmap s2 = ap_cmap s1 /\ ap_cn s2 = ap_cn s1 /\ ap_time s2 = ap_time s1 /\ ap_now s2 = ap_now s1).
  { unfold s2. cbn. destruct (1 <? ap_children s1); repeat split. }
  destruct E as (E1 & E2 & E3 & E4 & E5).
  assert (Cl1 : forall b v, In b D1 -> arc g b v -> In v D1).
  { intros b v Hb Ha. apply (visit_in _ _ _ _ _ _ H1) in Hb. destruct Hb as [Hb|Hb].
    - now apply (proj1 (visit_scan_closed g) _ _ _ _ H1 b).
    - apply (visit_incl _ _ _ _ _ H1). now apply (Cl b). }
  apply IH; auto.
  - destruct A1 as [[B1 B2 B3] _ _]. split; rewrite ?E3; auto; rewrite ?E4, ?E5; auto.
  - congruence.
  - intros x e Hx He L. unfold labelled. rewrite E2, E3. rewrite E4 in L. fold (labelled s1 e).
    assert (Q : covered s1 e).
    { apply (visit_in _ _ _ _ _ _ H1) in Hx. destruct Hx as [Hx|Hx]; [now apply (C1 x)|].
      apply K3. right. apply (Lb x); auto. assert (In (e_tgt e) D) by (apply (Cl x); [auto | now exists e]). rewrite !K1 in L by auto. exact L. }
    destruct Q as [Q|Q]; [rewrite S1 in Q; contradiction | exact Q].
Qed.

Theorem artic_labels g am cm : multigraph g ->
  exists k s, (forall f, (k <= f)%nat -> find_articulation_points f g am cm = Ok s) /\
    forall u e, (u < g_n g)%nat -> In e (g_out g u) -> e_tgt e <> u -> 0 <= ap_cmap s (e_id e) < ap_cn s.
Proof.
  intros M. pose proof (mg_wf g M) as wf. pose proof (multigraph_sym g M) as sym.
  assert (forall us s, exists tm, fold_left (fun s u => v_step artic_visitor (EInit u) s) us s =
    {| ap_map := ap_map s; ap_cmap := ap_cmap s; ap_stack := ap_stack s; ap_cn := ap_cn s; ap_time := tm; ap_low := ap_low s;
       ap_root := ap_root s; ap_now := ap_now s; ap_children := ap_children s |} /\ tm = fold_left (fun m u => upd m u 0) us (ap_time s)) as Ei.
  { induction us as [|u us IH]; intros [? ? ? ? ? ? ? ? ?]; [eexists; split; reflexivity|]. cbn [fold_left].
    edestruct IH as (tm & -> & ->). eexists. split; reflexivity. }
  destruct (Ei (vertices g) (artic_init am cm)) as (tm & E0 & Et).
  destruct (dfs_all_run artic_visitor g (artic_ok g) wf (artic_disciplined g) (artic_init am cm)) as (t & D' & F & R & k & E).
  { unfold init_all. rewrite E0. split; [cbn; lia|]. split; [easy|]. cbn. intros v Hv _. rewrite Et. apply fold_upd. now apply in_vertices. }
  exists k. eexists. split; [exact E|].
  destruct (forest_block g wf sym (vertices g) [] t D' F) with (s := init_all artic_visitor g (artic_init am cm)) as (A & B & C); try easy.
  { unfold init_all. rewrite E0. split; cbn; try lia; try contradiction. }
  { unfold init_all. rewrite E0. reflexivity. }
  set (s := run artic_visitor t _) in *. intros u e Hu He Hne.
  assert (In u D') as Hu' by (apply (forest_roots _ _ _ _ _ _ F); now apply in_vertices).
  assert (In (e_tgt e) D') as Hv' by (apply (C u); [auto | now exists e]).
  destruct (Z.lt_trichotomy (ap_time s (e_tgt e)) (ap_time s u)) as [L|[L|L]].
  - now apply (B u e).
  - destruct Hne. now apply (ti_inj _ _ A).
  - destruct (wf _ _ He) as (E1 & _). pose proof (mg_rev g M u e He) as Hr.
    apply (B (e_tgt e) (rev_edge e)); auto. cbn. now rewrite E1.
Qed.
