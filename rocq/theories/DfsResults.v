(** What the recorders contain after a depth-first search. *)
From Coq Require Import ZArith List Bool PeanoNat Lia Permutation.
From Verif Require Import Outcome GraphModel DfsProofs.
Import ListNotations.

(** ** Preliminaries *)
Definition crun {S} (c : component S) (t : list event) (s : S) : S := fold_left (fun s ev => c_step c ev s) t s.
Lemma crun_app {S} (c : component S) a b s : crun c (a ++ b) s = crun c b (crun c a s).
Proof. apply fold_left_app. Qed.
Lemma crun_cons {S} (c : component S) ev t s : crun c (ev :: t) s = crun c t (c_step c ev s).
Proof. reflexivity. Qed.
Lemma run_to_visitor {S} (c : component S) t s : run (to_visitor c) t s = crun c t s.
Proof. reflexivity. Qed.
Lemma run_with_flag {S} (c : component S) t s :
  run (with_flag c) t s = (crun c t (fst s), crun discovered_flag t (snd s)).
Proof.
  revert s. induction t as [|ev t IH]; intros [a m]; [reflexivity|].
  change (run (with_flag c) t (c_step c ev a, c_step discovered_flag ev m) = (crun c t (c_step c ev a), crun discovered_flag t (c_step discovered_flag ev m))).
  now rewrite IH.
Qed.

Definition init_events (g : graph) : list event := map EInit (vertices g).
Lemma init_all_run {S} (V : visitor S) g s : init_all V g s = run V (init_events g) s.
Proof.
  unfold init_all, init_events, run. revert s. induction (vertices g) as [|u us IH]; intro s; [reflexivity|]. cbn. apply IH.
Qed.
Lemma upd_same {T} (m : nat -> T) k v : upd m k v k = v.
Proof. unfold upd. now rewrite Nat.eqb_refl. Qed.
Lemma upd_other {T} (m : nat -> T) k v x : x <> k -> upd m k v x = m x.
Proof. unfold upd. intro H. now apply Nat.eqb_neq in H as ->. Qed.

Lemma fold_upd {T} (x : T) us m v : In v us -> fold_left (fun m u => upd m u x) us m v = x.
Proof.
  revert m. induction us as [|u us IH]; intros m; [easy|]. cbn.
  destruct (in_dec Nat.eq_dec v us) as [Hi|Hi]; [intros _; now apply IH|].
  intros [->|?]; [|easy]. assert (forall us (m : nat -> T), ~ In v us -> fold_left (fun m u => upd m u x) us m v = m v) as L.
  { clear. induction us as [|u us IH]; intros m H; [reflexivity|]. cbn. rewrite IH by (intro; apply H; now right).
    apply upd_other. intros ->. apply H. now left. }
  rewrite L by assumption. apply upd_same.
Qed.
Lemma in_vertices g v : In v (vertices g) <-> v < g_n g.
Proof. unfold vertices. rewrite in_seq. lia. Qed.

(** Events inside of a visit. *)
Definition inner (ev : event) : Prop :=
  match ev with EInit _ | ESearchStart _ | ESearchFinish _ => False | _ => True end.
Lemma visit_scan_inner g :
  (forall u D t D', visit g u D t D' -> Forall inner t) /\
  (forall u es D t D', scan_es g u es D t D' -> Forall inner t).
Proof.
  apply visit_scan_ind; intros; repeat constructor; auto.
  apply Forall_app. split; [assumption|]. repeat constructor; auto.
Qed.

(** Invariants along a visit. *)
Lemma visit_scan_stable {S} (V : visitor S) g (I : list nat -> S -> Prop) :
  wf_graph g ->
  (forall D s e, I D s -> In e (g_out g (e_src e)) -> In (e_src e) D -> e_tgt e < g_n g -> ~ In (e_tgt e) D ->
     I (e_tgt e :: D) (v_step V (EStart (e_tgt e)) (v_step V (EDiscover (e_tgt e)) (v_step V (ETreeStart e) s)))) ->
  (forall D s e, I D s -> In (e_src e) D -> In (e_tgt e) D -> I D (v_step V (ENonTree e) s)) ->
  (forall D s e, I D s -> In (e_src e) D -> In (e_tgt e) D -> I D (v_step V (ETreeFinish e) s)) ->
  (forall D s u, I D s -> In u D -> I D (v_step V (EFinish u) s)) ->
  (forall u D t D', visit g u D t D' -> forall s,
     I (u :: D) (v_step V (EStart u) (v_step V (EDiscover u) s)) -> I D' (run V t s)) /\
  (forall u es D t D', scan_es g u es D t D' -> forall s, I D s -> In u D -> incl es (g_out g u) -> I D' (run V t s)).
Proof.
  intros wf Ht Hn Hf Hv. apply visit_scan_ind.
  - intros u D t D' _ IH s H. apply IH; [assumption | now left | apply incl_refl].
  - intros u D s H Hu _. now apply Hv.
  - intros u e es D t D' Hi _ IH s H Hu Hs.
    assert (In e (g_out g u)) as He by (apply Hs; now left). destruct (wf _ _ He) as (E1 & E2).
    apply IH; [|assumption | intros x Hx; apply Hs; now right]. apply Hn; [assumption | now rewrite E1 | assumption].
  - intros u e es D t1 D1 t2 D' Hni H1 IH1 H2 IH2 s H Hu Hs.
    assert (In e (g_out g u)) as He by (apply Hs; now left). destruct (wf _ _ He) as (E1 & E2).
    change (I D' (run V (t1 ++ ETreeFinish e :: t2) (v_step V (ETreeStart e) s))). rewrite run_app.
    apply (IH2 (v_step V (ETreeFinish e) (run V t1 (v_step V (ETreeStart e) s)))).
    + apply Hf.
      * apply IH1. apply Ht; try assumption; now rewrite E1.
      * rewrite E1. now apply (visit_incl _ _ _ _ _ H1).
      * apply (visit_in _ _ _ _ _ _ H1). left. now apply (visit_discovers_root _ _ _ _ _ H1).
    + now apply (visit_incl _ _ _ _ _ H1).
    + intros x Hx. apply Hs. now right.
Qed.

(** ** discovered_flag *)
Definition flag_ok (g : graph) {S} (D : list nat) (s : S * (nat -> bool)) : Prop :=
  forall v, v < g_n g -> snd s v = true <-> In v D.
Lemma flag_disciplined g {S} (c : component S) : c_disc c = None -> disciplined g (with_flag c) (flag_ok g).
Proof.
  intro N.
  assert (forall D (s : S * (nat -> bool)) (a : S) u, flag_ok g D s -> flag_ok g (u :: D) (a, upd (snd s) u true)) as A.
  { intros D [a0 m] a u H v Hv. cbn. unfold upd. destruct (Nat.eqb_spec v u) as [->|n]; [tauto|].
    specialize (H v Hv). cbn in H. rewrite H. intuition congruence. }
  split; intros; try (apply A; assumption); try assumption.
  cbn. rewrite N. now apply H.
Qed.
Lemma flag_init g {S} (c : component S) s : flag_ok g [] (init_all (with_flag c) g s).
Proof.
  rewrite init_all_run, run_with_flag. intros v Hv. cbn [snd]. unfold init_events, crun.
  assert (forall us m, fold_left (fun s ev => c_step discovered_flag ev s) (map EInit us) m = fold_left (fun m u => upd m u false) us m) as ->.
  { induction us as [|u us IH]; intro m; [reflexivity | apply IH]. }
  rewrite fold_upd by now apply in_vertices. easy.
Qed.

(** ** Events of a search from one vertex, and of the whole graph *)
Theorem dfs_from_events g u : wf_graph g -> u < g_n g ->
  exists t D', visit g u [] t D' /\
    forall S (c : component S) s m, c_disc c = None -> exists m' k, forall f, k <= f ->
      dfs_from (with_flag c) g always_false f (s, m) u =
      Ok (crun c (init_events g ++ ESearchStart u :: t ++ [ESearchFinish (Some u)]) s, m').
Proof.
  intros wf Hu. destruct (visit_exists g wf u [] Hu) as (t & D' & Hv); [easy|]. exists t, D'. split; [assumption|].
  intros S c s m N.
  destruct (dfs_visit_run (with_flag c) g (flag_ok g) wf (flag_disciplined g c N) u [] t D'
    (init_all (with_flag c) g (s, m)) Hv Hu) as (_ & k & B); [easy | apply flag_init |].
  rewrite init_all_run in B. rewrite <- run_app in B. eexists _, k.
  intros f Hf. unfold dfs_from. rewrite init_all_run, (B f Hf), run_with_flag. reflexivity.
Qed.
Theorem dfs_all_events g : wf_graph g ->
  exists t D', forest g (vertices g) [] t D' /\
    forall S (c : component S) s m, c_disc c = None -> exists m' k, forall f, k <= f ->
      dfs_all (with_flag c) g always_false f (s, m) = Ok (crun c (init_events g ++ t) s, m').
Proof.
  intros wf. assert (forall r, In r (vertices g) -> r < g_n g) as L by (intros r; apply in_vertices).
  destruct (forest_exists g wf (vertices g) [] L) as (t & D' & F). exists t, D'. split; [assumption|].
  intros S c s m N.
  destruct (dfs_roots_run (with_flag c) g (flag_ok g) wf (flag_disciplined g c N) (vertices g) [] t D'
    (init_all (with_flag c) g (s, m)) F L) as (_ & k & B); [apply flag_init |].
  rewrite init_all_run in B. rewrite <- run_app in B. eexists _, k.
  intros f Hf. unfold dfs_all. rewrite init_all_run, (B f Hf), run_with_flag. reflexivity.
Qed.

(** ** Time stamps *)
Local Open Scope Z_scope.
Definition stampc := in_out_time_stamper.
Definition laminar (i o : nat -> Z) (v w : nat) : Prop :=
  o v <= i w \/ o w <= i v \/ (i v < i w /\ o w <= o v) \/ (i w < i v /\ o v <= o w).

Record stamped (g : graph) (D X : list nat) (s s' : stamps) : Prop := {
  st_now : time_now s' = time_now s + Z.of_nat (length X);
  st_in v : ~ In v X -> in_time s' v = in_time s v;
  st_range v : In v X -> time_now s <= in_time s' v < out_time s' v /\ out_time s' v <= time_now s';
  st_lam v w : In v X -> In w X -> v <> w -> in_time s' v <> in_time s' w /\ laminar (in_time s') (out_time s') v w;
  st_reach v w : In v X -> In w X -> in_time s' v <= in_time s' w < out_time s' v -> reach g v w;
  st_arc v w : In v X -> arc g v w -> in_time s' w < out_time s' v }.

Lemma visit_scan_stamps g : wf_graph g ->
  (forall u D t D', visit g u D t D' -> ~ In u D -> forall s, (forall v, In v D -> in_time s v < time_now s) ->
     let s' := crun stampc t s in
     stamped g D (discovers t) s s' /\
     (forall v, ~ In v (discovers t) -> out_time s' v = out_time s v) /\
     in_time s' u = time_now s /\ out_time s' u = time_now s' /\
     (forall v, In v D' -> in_time s' v < time_now s')) /\
  (forall u es D t D', scan_es g u es D t D' -> incl es (g_out g u) -> In u D -> forall s, (forall v, In v D -> in_time s v < time_now s) ->
     let s' := crun stampc t s in
     stamped g D (discovers t) s s' /\
     (forall v, v <> u -> ~ In v (discovers t) -> out_time s' v = out_time s v) /\
     out_time s' u = time_now s' /\
     (forall v, In v D' -> in_time s' v < time_now s')).
Proof.
  intro wf. apply visit_scan_ind.
  - intros u D t D' H IH Hu s Hs. set (s1 := c_step stampc (EStart u) s).
    assert (forall v, In v (u :: D) -> in_time s1 v < time_now s1) as Hs1.
    { intros v Hv. cbn. unfold upd. destruct (Nat.eqb_spec v u); [lia|].
      destruct Hv as [->|Hv]; [congruence|]. specialize (Hs v Hv). lia. }
    specialize (IH (incl_refl _) (or_introl eq_refl) s1 Hs1). cbv zeta in IH. destruct IH as (St & Ho & Hou & Hl).
    pose proof (proj2 (visit_scan_new g) _ _ _ _ _ H) as (Nd & Fr).
    assert (~ In u (discovers t)) as Hut by (intro X; apply (Fr u X); now left).
    cbv zeta. change (crun stampc (EDiscover u :: EStart u :: t) s) with (crun stampc t s1).
    change (discovers (EDiscover u :: EStart u :: t)) with (u :: discovers t).
    assert (in_time (crun stampc t s1) u = time_now s) as Eu.
    { rewrite (st_in _ _ _ _ _ St u Hut). cbn. apply upd_same. }
    assert (time_now s1 = time_now s + 1) as En by reflexivity.
    pose proof (st_now _ _ _ _ _ St) as Enow.
    assert (forall w, In w (u :: discovers t) -> reach g u w) as Ru.
    { intros w Hw. apply reach_avoid_reach with D. apply (proj1 (visit_scan_reach g) u D (EDiscover u :: EStart u :: t) D'); [now constructor | assumption | exact Hw]. }
    split; [|split; [|split; [|split]]].
    + split.
      * rewrite Enow, En. cbn [length]. lia.
      * intros v Hv. rewrite (st_in _ _ _ _ _ St); [|intro; apply Hv; now right].
        cbn. apply upd_other. intros ->. apply Hv. now left.
      * intros v [<-|Hv]; [rewrite Eu, Hou; lia|]. pose proof (st_range _ _ _ _ _ St v Hv). lia.
      * intros v w [<-|Hv] [<-|Hw] Hne; [congruence | | |].
        -- pose proof (st_range _ _ _ _ _ St w Hw). rewrite Eu. unfold laminar. rewrite Eu, Hou. lia.
        -- pose proof (st_range _ _ _ _ _ St v Hv). rewrite Eu. unfold laminar. rewrite Eu, Hou. lia.
        -- now apply (st_lam _ _ _ _ _ St).
      * intros v w [<-|Hv] Hw.
        -- intros _. now apply Ru.
        -- destruct Hw as [<-|Hw]; [|now apply (st_reach _ _ _ _ _ St)].
           pose proof (st_range _ _ _ _ _ St v Hv). rewrite Eu. lia.
      * intros v w [<-|Hv] Ha; [|now apply (st_arc _ _ _ _ _ St)].
        rewrite Hou. apply Hl. destruct Ha as (e & He & <-). now apply (proj1 (proj2 (visit_scan_closed g) _ _ _ _ _ H)).
    + intros v Hv. rewrite Ho; [reflexivity | intros ->; apply Hv; now left | intro; apply Hv; now right].
    + exact Eu.
    + exact Hou.
    + exact Hl.
  - intros u D _ Hu s Hs. cbn. split; [split; cbn; try easy; lia|]. split; [|split].
    + intros v Hv _. now apply upd_other.
    + apply upd_same.
    + exact Hs.
  - intros u e es D t D' Hi H IH Hes Hu s Hs. apply (IH ltac:(intros x Hx; apply Hes; now right) Hu s Hs).
  - intros u e es D t1 D1 t2 D' Hn H1 IH1 H2 IH2 Hes Hu s Hs.
    specialize (IH1 Hn s Hs). cbv zeta in IH1. set (s1 := crun stampc t1 s) in *.
    destruct IH1 as (St1 & Ho1 & Hi1 & Hou1 & Hl1).
    specialize (IH2 ltac:(intros x Hx; apply Hes; now right) (visit_incl _ _ _ _ _ H1 _ Hu) s1 Hl1). cbv zeta in IH2.
    cbv zeta. assert (crun stampc (ETreeStart e :: t1 ++ ETreeFinish e :: t2) s = crun stampc t2 s1) as ->.
    { change (crun stampc (t1 ++ ETreeFinish e :: t2) s = crun stampc t2 s1). now rewrite crun_app. }
    set (s2 := crun stampc t2 s1) in *. destruct IH2 as (St2 & Ho2 & Hou2 & Hl2).
    change (discovers (ETreeStart e :: t1 ++ ETreeFinish e :: t2)) with (discovers (t1 ++ ETreeFinish e :: t2)).
    rewrite discovers_app. change (discovers (ETreeFinish e :: t2)) with (discovers t2).
    pose proof (proj1 (visit_scan_new g) _ _ _ _ H1 Hn) as (N1 & F1).
    pose proof (proj2 (visit_scan_new g) _ _ _ _ _ H2) as (N2 & F2).
    assert (forall v, In v (discovers t1) -> ~ In v (discovers t2)) as Dj.
    { intros v Hv Hv2. apply (F2 v Hv2). apply (visit_in _ _ _ _ _ _ H1). now left. }
    assert (forall v, In v (discovers t1) -> v <> u) as Du by (intros v Hv ->; now apply (F1 u Hv)).
    assert (forall v, In v (discovers t1) -> in_time s2 v = in_time s1 v /\ out_time s2 v = out_time s1 v) as Old.
    { intros v Hv. split; [apply (st_in _ _ _ _ _ St2 v (Dj v Hv)) | apply Ho2; auto]. }
    pose proof (st_now _ _ _ _ _ St1) as Ew1. pose proof (st_now _ _ _ _ _ St2) as Ew2.
    split; [|split; [|split]].
    + split.
      * rewrite Ew2, Ew1, app_length. lia.
      * intros v Hv. rewrite in_app_iff in Hv.
        rewrite (st_in _ _ _ _ _ St2) by tauto. apply (st_in _ _ _ _ _ St1). tauto.
      * intros v Hv. apply in_app_iff in Hv. destruct Hv as [Hv|Hv].
        -- destruct (Old v Hv) as (-> & ->). pose proof (st_range _ _ _ _ _ St1 v Hv). lia.
        -- pose proof (st_range _ _ _ _ _ St2 v Hv). lia.
      * intros v w Hv Hw Hne. apply in_app_iff in Hv, Hw. destruct Hv as [Hv|Hv], Hw as [Hw|Hw].
        -- destruct (Old v Hv) as (Ev1 & Ev2), (Old w Hw) as (Ew3 & Ew4). unfold laminar. rewrite Ev1, Ev2, Ew3, Ew4.
           now apply (st_lam _ _ _ _ _ St1).
        -- pose proof (st_range _ _ _ _ _ St1 v Hv). pose proof (st_range _ _ _ _ _ St2 w Hw).
           destruct (Old v Hv) as (Ev1 & Ev2). unfold laminar. rewrite Ev1, Ev2. lia.
        -- pose proof (st_range _ _ _ _ _ St1 w Hw). pose proof (st_range _ _ _ _ _ St2 v Hv).
           destruct (Old w Hw) as (Ev1 & Ev2). unfold laminar. rewrite Ev1, Ev2. lia.
        -- now apply (st_lam _ _ _ _ _ St2).
      * intros v w Hv Hw. apply in_app_iff in Hv, Hw. destruct Hv as [Hv|Hv], Hw as [Hw|Hw].
        -- destruct (Old v Hv) as (-> & ->), (Old w Hw) as (-> & _). now apply (st_reach _ _ _ _ _ St1).
        -- destruct (Old v Hv) as (-> & ->). pose proof (st_range _ _ _ _ _ St1 v Hv). pose proof (st_range _ _ _ _ _ St2 w Hw). lia.
        -- destruct (Old w Hw) as (-> & _). pose proof (st_range _ _ _ _ _ St1 w Hw). pose proof (st_range _ _ _ _ _ St2 v Hv). lia.
        -- now apply (st_reach _ _ _ _ _ St2).
      * intros v w Hv Ha. apply in_app_iff in Hv. destruct Hv as [Hv|Hv]; [|now apply (st_arc _ _ _ _ _ St2)].
        destruct (Old v Hv) as (_ & ->).
        pose proof (proj1 (visit_scan_closed g) _ _ _ _ H1 v w Hv Ha) as Hw.
        rewrite (st_in _ _ _ _ _ St2 w) by (intro X; now apply (F2 w X)). now apply (st_arc _ _ _ _ _ St1).
    + intros v Hvu Hv. rewrite in_app_iff in Hv. rewrite Ho2 by tauto. apply Ho1. tauto.
    + exact Hou2.
    + exact Hl2.
Qed.
Local Close Scope Z_scope.

(** ** Topological order *)
(** No edge lies on a cycle. *)
Definition acyclic (g : graph) : Prop := forall u v, arc g u v -> ~ reach g v u.
(** Each vertex of [F] comes after the targets of its edges. *)
Definition targets_first (g : graph) (F : list nat) : Prop :=
  forall a w b, F = a ++ w :: b -> forall x, arc g w x -> In x a.
Lemma targets_first_snoc g F u : targets_first g F -> (forall x, arc g u x -> In x F) -> targets_first g (F ++ [u]).
Proof.
  intros H Hu a w b E x Hx. destruct (exists_last (l := w :: b)) as (b' & y & Eb); [easy|]. rewrite Eb in E.
  rewrite app_assoc in E. apply app_inj_tail in E. destruct E as (EF & <-). destruct b' as [|w' b'].
  - injection Eb as -> ->. rewrite EF, app_nil_r in Hu. now apply Hu.
  - injection Eb as -> ->. now apply (H a w' b').
Qed.

Lemma visit_scan_topological g : wf_graph g -> acyclic g ->
  (forall u D t D', visit g u D t D' -> forall F, targets_first g F -> (forall v, In v D -> In v F \/ arc g v u \/ reach g v u) ->
     targets_first g (F ++ finishes t)) /\
  (forall u es D t D', scan_es g u es D t D' -> incl es (g_out g u) -> forall F, targets_first g F ->
     (forall v, In v D -> In v F \/ reach g v u) ->
     (forall x, arc g u x -> In x F \/ exists e, In e es /\ e_tgt e = x) ->
     targets_first g (F ++ finishes t)).
Proof.
  intros wf ac. apply visit_scan_ind.
  - intros u D t D' H IH F HF HD. cbn. fold (finishes t). apply IH; [apply incl_refl | assumption | |].
    + intros v [<-|Hv]; [right; apply reach_refl|]. destruct (HD v Hv) as [?|[?|?]]; [tauto | right; now apply reach_arc | tauto].
    + intros x (e & He & <-). right. now exists e.
  - intros u D _ F HF HD Hx. cbn. apply targets_first_snoc; [assumption|].
    intros x Ha. destruct (Hx x Ha) as [?|(e & [] & _)]. assumption.
  - intros u e es D t D' Hi H IH Hes F HF HD Hx. change (finishes (ENonTree e :: t)) with (finishes t).
    apply IH; [intros x Hx'; apply Hes; now right | assumption | assumption |].
    intros x Ha. destruct (Hx x Ha) as [?|(e' & [<-|He] & E)]; [tauto | | right; now exists e'].
    left. subst x. destruct (HD _ Hi) as [?|R]; [assumption|]. destruct (ac _ _ Ha R).
  - intros u e es D t1 D1 t2 D' Hn H1 IH1 H2 IH2 Hes F HF HD Hx.
    change (finishes (ETreeStart e :: t1 ++ ETreeFinish e :: t2)) with (finishes (t1 ++ ETreeFinish e :: t2)).
    rewrite finishes_app, app_assoc. change (finishes (ETreeFinish e :: t2)) with (finishes t2).
    assert (arc g u (e_tgt e)) as Ha by (exists e; split; [apply Hes; now left | reflexivity]).
    assert (forall v, In v (discovers t1) -> In v (finishes t1)) as Fd.
    { intros v Hv. apply (Permutation_in _ (Permutation_sym (proj2 (proj1 (visit_scan_starts g) _ _ _ _ H1)))). assumption. }
    apply IH2.
    + intros x Hx'. apply Hes. now right.
    + apply IH1; [assumption|]. intros v Hv. destruct (HD v Hv) as [?|R]; [tauto|].
      right. right. eapply reach_step; eauto.
    + intros v Hv. rewrite in_app_iff. apply (visit_in _ _ _ _ _ _ H1) in Hv. destruct Hv as [Hv|Hv]; [left; right; auto|].
      destruct (HD v Hv); tauto.
    + intros x Hx'. rewrite in_app_iff. destruct (Hx x Hx') as [?|(e' & [<-|He] & E)]; [tauto | | right; now exists e'].
      left. right. subst x. apply Fd. now apply (visit_discovers_root _ _ _ _ _ H1).
Qed.
Lemma forest_topological g : wf_graph g -> acyclic g -> forall rs D t D', forest g rs D t D' ->
  forall F, targets_first g F -> incl D F -> targets_first g (F ++ finishes t).
Proof.
  intros wf ac rs D t D' H. induction H as [D|r rs D t D' Hi F IH|r rs D t1 D1 t2 D' Hn H1 H2 IH]; intros G HG HD.
  - cbn. now rewrite app_nil_r.
  - now apply IH.
  - change (finishes (ESearchStart r :: t1 ++ ESearchFinish (Some r) :: t2)) with (finishes (t1 ++ ESearchFinish (Some r) :: t2)).
    rewrite finishes_app, app_assoc. change (finishes (ESearchFinish (Some r) :: t2)) with (finishes t2). apply IH.
    + apply (proj1 (visit_scan_topological g wf ac) _ _ _ _ H1); [assumption|]. intros v Hv. left. now apply HD.
    + intros v Hv. apply in_app_iff. apply (visit_in _ _ _ _ _ _ H1) in Hv. destruct Hv as [Hv|Hv]; [right | left; auto].
      apply (Permutation_in _ (Permutation_sym (proj2 (proj1 (visit_scan_starts g) _ _ _ _ H1)))). assumption.
Qed.
Lemma finish_printer_run t o : crun finish_printer t o = o ++ finishes t.
Proof.
  revert o. induction t as [|ev t IH]; intro o; [now rewrite app_nil_r|].
  rewrite crun_cons, IH. destruct ev; try reflexivity. cbn [c_step finish_printer]. now rewrite <- app_assoc.
Qed.
Lemma start_printer_run t o : crun start_printer t o = o ++ starts t.
Proof.
  revert o. induction t as [|ev t IH]; intro o; [now rewrite app_nil_r|].
  rewrite crun_cons, IH. destruct ev; try reflexivity. cbn [c_step start_printer]. now rewrite <- app_assoc.
Qed.
Lemma init_finishes g : finishes (init_events g) = [].
Proof. unfold init_events. now induction (vertices g). Qed.
Lemma init_starts g : starts (init_events g) = [].
Proof. unfold init_events. now induction (vertices g). Qed.

Theorem topological_sort_ok g m : wf_graph g ->
  exists k order, (forall f, k <= f -> topological_sort f g m = Ok order) /\
    Permutation order (vertices g) /\ (acyclic g -> targets_first g order).
Proof.
  intro wf. destruct (dfs_all_events g wf) as (t & D' & F & H).
  destruct (H _ finish_printer [] m eq_refl) as (m' & k & E). exists k, (finishes t).
  destruct (forest_new _ _ _ _ _ F) as (N & Fr & _ & P & _). split; [|split].
  - intros f Hf. unfold topological_sort. rewrite (E f Hf), finish_printer_run, finishes_app, init_finishes. reflexivity.
  - rewrite P. apply NoDup_Permutation; [assumption | apply seq_NoDup |]. intro v. split.
    + intro Hv. apply in_vertices.
      assert (In v D') as Hi by (apply (forest_in _ _ _ _ _ _ F); now left).
      clear - F wf Hv. assert (forall r, In r (vertices g) -> r < g_n g) as L by (intros r; apply in_vertices).
      induction F as [D|r rs D t D' Hi F IH|r rs D t1 D1 t2 D' Hn H1 H2 IH]; [easy | apply IH; auto; intros; apply L; now right |].
      change (In v (discovers (t1 ++ ESearchFinish (Some r) :: t2))) in Hv. rewrite discovers_app in Hv.
      apply in_app_iff in Hv. destruct Hv as [Hv|Hv].
      * apply (visit_lt g wf r D t1 D1); auto. apply L. now left.
      * apply IH; [assumption|]. intros. apply L. now right.
    + intro Hv. apply (forest_roots _ _ _ _ _ _ F) in Hv. apply (forest_in _ _ _ _ _ _ F) in Hv. now destruct Hv.
  - intro ac. apply (forest_topological g wf ac _ _ _ _ F []); [|easy]. intros a w b E'. now destruct a.
Qed.

(** ** Connected components *)
(** The out-edge lists of an undirected graph. *)
Definition symmetric (g : graph) : Prop := forall u v, arc g u v -> arc g v u.
Lemma reach_sym g u v : symmetric g -> reach g u v -> reach g v u.
Proof.
  intro H. induction 1; [apply reach_refl|]. eapply reach_trans; [|eassumption]. now apply reach_arc, H.
Qed.
Local Open Scope Z_scope.
Lemma cc_inner t : Forall inner t -> forall s,
  snd (crun default_cc_recorder t s) = snd s /\
  forall v, fst (crun default_cc_recorder t s) v = if existsb (Nat.eqb v) (discovers t) then snd s else fst s v.
Proof.
  induction 1 as [|ev t Hev _ IH]; intros [m c]; [now split|]. rewrite crun_cons.
  destruct (IH (c_step default_cc_recorder ev (m, c))) as (A & B).
  destruct ev; try contradiction; try (split; [exact A | exact B]).
  split; [exact A|]. intro v. rewrite B. cbn [discovers flat_map app existsb]. fold (discovers t).
  cbn [c_step default_cc_recorder vertex_initializer cc_recorder fst snd]. unfold upd.
  destruct (existsb (Nat.eqb v) (discovers t)); [now rewrite orb_true_r|]. rewrite orb_false_r. reflexivity.
Qed.
Definition cc_ok (g : graph) (D : list nat) (s : (nat -> Z) * Z) : Prop :=
  0 <= snd s /\ forall v, (v < g_n g)%nat -> fst s v <> -1 <-> In v D.
Lemma cc_disciplined g : disciplined g cc_visitor (cc_ok g).
Proof.
  assert (forall D s u, cc_ok g D s -> cc_ok g (u :: D) (upd (fst s) u (snd s), snd s)) as A.
  { intros D [m c] u (H0 & H). split; [exact H0|]. cbn in *. intros v Hv. unfold upd.
    destruct (Nat.eqb_spec v u) as [->|n]; [split; [now left | lia]|].
    rewrite (H v Hv). intuition congruence. }
  split; intros; try (apply A; assumption); try assumption.
  - destruct H as (_ & H). specialize (H v H0). cbn. rewrite <- H. rewrite negb_true_iff, Z.eqb_neq. reflexivity.
  - destruct H as (H1 & H2). split; cbn in *; [lia | exact H2].
Qed.
Lemma cc_init g s : 0 <= snd s -> cc_ok g [] (init_all cc_visitor g s) /\ snd (init_all cc_visitor g s) = snd s.
Proof.
  intro H. assert (forall us m c, fold_left (fun s u => v_step cc_visitor (EInit u) s) us (m, c) = (fold_left (fun m u => upd m u (-1)) us m, c)) as E.
  { induction us as [|u us IH]; intros m c; [reflexivity | apply IH]. }
  unfold init_all. destruct s as [m c]. rewrite E. split; [|reflexivity]. split; [exact H|]. cbn. intros v Hv.
  rewrite fold_upd by now apply in_vertices. easy.
Qed.

(** The labels describe the components of the vertices of [D]. *)
Record labelled (g : graph) (D : list nat) (m : nat -> Z) (c : Z) : Prop := {
  lb_closed v w : In v D -> arc g v w -> In w D;
  lb_iff v w : In v D -> In w D -> m v = m w <-> reach g v w;
  lb_range v : In v D -> 0 <= m v < c;
  lb_onto k : 0 <= k < c -> exists v, In v D /\ m v = k }.
Lemma forest_labelled g : wf_graph g -> symmetric g -> forall rs D t D', forest g rs D t D' ->
  forall s, 0 <= snd s -> labelled g D (fst s) (snd s) ->
  0 <= snd (run cc_visitor t s) /\ labelled g D' (fst (run cc_visitor t s)) (snd (run cc_visitor t s)).
Proof.
  intros wf sym rs D t D' H. induction H as [D|r rs D t D' Hi F IH|r rs D t1 D1 t2 D' Hn H1 H2 IH]; intros s H0 L.
  - now split.
  - now apply IH.
  - assert (run cc_visitor (ESearchStart r :: t1 ++ ESearchFinish (Some r) :: t2) s =
      run cc_visitor t2 (v_step cc_visitor (ESearchFinish (Some r)) (run cc_visitor t1 s))) as ->.
    { change (run cc_visitor (t1 ++ ESearchFinish (Some r) :: t2) s = run cc_visitor t2 (v_step cc_visitor (ESearchFinish (Some r)) (run cc_visitor t1 s))).
      now rewrite run_app. }
    destruct (cc_inner t1 (proj1 (visit_scan_inner g) _ _ _ _ H1) s) as (A & B).
    change (crun default_cc_recorder t1 s) with (run cc_visitor t1 s) in A, B.
    destruct (run cc_visitor t1 s) as [m1 c1]. cbn [fst snd] in A, B. subst c1. destruct s as [m c]. cbn [fst snd] in *.
    apply IH; cbn [v_step cc_visitor to_visitor c_step default_cc_recorder vertex_initializer cc_recorder fst snd]; [lia|].
    assert (forall v, In v (discovers t1) -> ~ In v D) as New by apply (proj1 (visit_scan_new g) _ _ _ _ H1 Hn).
    assert (forall v, In v (discovers t1) -> m1 v = c) as Mn.
    { intros v Hv. rewrite B. apply existsb_eqb in Hv. now rewrite Hv. }
    assert (forall v, In v D -> m1 v = m v) as Mo.
    { intros v Hv. rewrite B. assert (existsb (Nat.eqb v) (discovers t1) = false) as ->; [|reflexivity].
      apply not_true_iff_false. rewrite existsb_eqb. intro X. now apply (New v X). }
    assert (forall v w, In v D -> reach g v w -> In w D) as Cl.
    { intros v w Hv R. induction R; [assumption|]. now apply (lb_closed _ _ _ _ L v0). }
    assert (forall v, In v (discovers t1) -> reach g r v) as Rr.
    { intros v Hv. apply reach_avoid_reach with D. now apply (white_path g r D t1 D1). }
    assert (forall v, In v D1 -> In v (discovers t1) \/ In v D) as Cs by (intros v; apply (visit_in _ _ _ _ _ _ H1)).
    split.
    + intros v w Hv Ha. destruct (Cs v Hv) as [Hv'|Hv'].
      * now apply (proj1 (visit_scan_closed g) _ _ _ _ H1 v).
      * apply (visit_incl _ _ _ _ _ H1). now apply (lb_closed _ _ _ _ L v).
    + intros v w Hv Hw. destruct (Cs v Hv) as [Hv'|Hv'], (Cs w Hw) as [Hw'|Hw'].
      * rewrite (Mn v Hv'), (Mn w Hw'). split; [|reflexivity]. intros _.
        eapply reach_trans; [apply reach_sym; [assumption | now apply Rr] | now apply Rr].
      * rewrite (Mn v Hv'), (Mo w Hw'). pose proof (lb_range _ _ _ _ L w Hw'). split; [lia|].
        intro R. apply (reach_sym _ _ _ sym) in R. destruct (New v Hv'). now apply (Cl w).
      * rewrite (Mo v Hv'), (Mn w Hw'). pose proof (lb_range _ _ _ _ L v Hv'). split; [lia|].
        intro R. destruct (New w Hw'). now apply (Cl v).
      * rewrite (Mo v Hv'), (Mo w Hw'). now apply (lb_iff _ _ _ _ L).
    + intros v Hv. destruct (Cs v Hv) as [Hv'|Hv']; [rewrite (Mn v Hv'); lia|].
      rewrite (Mo v Hv'). pose proof (lb_range _ _ _ _ L v Hv'). lia.
    + intros k Hk. destruct (Z.eq_dec k c) as [->|n].
      * exists r. pose proof (visit_discovers_root _ _ _ _ _ H1) as Hr. split; [apply (visit_in _ _ _ _ _ _ H1); now left | now apply Mn].
      * destruct (lb_onto _ _ _ _ L k) as (v & Hv & E); [lia|]. exists v. split; [now apply (visit_incl _ _ _ _ _ H1) | now rewrite Mo].
Qed.
Theorem connected_components_ok g m : wf_graph g -> symmetric g ->
  exists k m' c, (forall f, (k <= f)%nat -> dfs_all cc_visitor g always_false f (m, 0) = Ok (m', c)) /\
    (forall v w, (v < g_n g)%nat -> (w < g_n g)%nat -> m' v = m' w <-> reach g v w) /\
    (forall v, (v < g_n g)%nat -> 0 <= m' v < c) /\
    (forall l, 0 <= l < c -> exists v, (v < g_n g)%nat /\ m' v = l).
Proof.
  intros wf sym. destruct (cc_init g (m, 0)) as (R0 & E0); [cbn; lia|].
  destruct (dfs_all_run cc_visitor g (cc_ok g) wf (cc_disciplined g) (m, 0) R0) as (t & D' & F & R & k & E).
  exists k, (fst (run cc_visitor t (init_all cc_visitor g (m, 0)))), (snd (run cc_visitor t (init_all cc_visitor g (m, 0)))).
  rewrite <- surjective_pairing. split; [exact E|].
  destruct (forest_labelled g wf sym _ _ _ _ F (init_all cc_visitor g (m, 0))) as (_ & L).
  { rewrite E0. cbn. lia. }
  { rewrite E0. split; try easy. cbn. lia. }
  assert (forall v, (v < g_n g)%nat <-> In v D') as Dv.
  { intro v. split; [intro Hv; apply (forest_roots _ _ _ _ _ _ F); now apply in_vertices|].
    intro Hv. apply (forest_in _ _ _ _ _ _ F) in Hv. destruct Hv as [Hv|[]].
    clear - F wf Hv. assert (forall r, In r (vertices g) -> (r < g_n g)%nat) as L by (intros r; apply in_vertices).
    induction F as [D|r rs D t D' Hi F IH|r rs D t1 D1 t2 D' Hn H1 H2 IH]; [easy | apply IH; auto; intros; apply L; now right |].
    change (In v (discovers (t1 ++ ESearchFinish (Some r) :: t2))) in Hv. rewrite discovers_app in Hv.
    apply in_app_iff in Hv. destruct Hv as [Hv|Hv].
    - apply (visit_lt g wf r D t1 D1); auto. apply L. now left.
    - apply IH; [assumption|]. intros. apply L. now right. }
  split; [|split].
  - intros v w Hv Hw. apply (lb_iff _ _ _ _ L); now apply Dv.
  - intros v Hv. apply (lb_range _ _ _ _ L). now apply Dv.
  - intros l Hl. destruct (lb_onto _ _ _ _ L l Hl) as (v & Hv & Ev). exists v. split; [now apply Dv | assumption].
Qed.
