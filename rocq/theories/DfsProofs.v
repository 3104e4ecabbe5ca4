(** Depth-first search: the loop with the explicit stack against the recursive
    version, and both against a big-step description of the event sequence. *)
From Coq Require Import ZArith List Bool PeanoNat Lia Permutation.
From Verif Require Import Outcome GraphModel.
Import ListNotations.

(** ** Specification: graphs and reachability *)
(** Out-edges have the right source and lead to vertices of the graph. *)
Definition wf_graph (g : graph) : Prop :=
  forall u e, In e (g_out g u) -> e_src e = u /\ e_tgt e < g_n g.
(** [u -> v] is an edge of the graph. *)
Definition arc (g : graph) (u v : nat) : Prop := exists e, In e (g_out g u) /\ e_tgt e = v.
Inductive reach (g : graph) (u : nat) : nat -> Prop :=
| reach_refl : reach g u u
| reach_step v w : reach g u v -> arc g v w -> reach g u w.
(** Reachability by a path avoiding the vertices of [D]. *)
Inductive reach_avoid (g : graph) (D : list nat) (u : nat) : nat -> Prop :=
| ra_refl : ~ In u D -> reach_avoid g D u u
| ra_step v w : reach_avoid g D u v -> arc g v w -> ~ In w D -> reach_avoid g D u w.

Lemma reach_trans g u v w : reach g u v -> reach g v w -> reach g u w.
Proof. intros H1 H2. induction H2; [assumption|]. eapply reach_step; eauto. Qed.
Lemma reach_arc g u v : arc g u v -> reach g u v.
Proof. intro. eapply reach_step; [apply reach_refl | assumption]. Qed.
Lemma reach_avoid_reach g D u v : reach_avoid g D u v -> reach g u v.
Proof. induction 1; [apply reach_refl | eapply reach_step; eauto]. Qed.
Lemma reach_avoid_mono g D D' u v : incl D D' -> reach_avoid g D' u v -> reach_avoid g D u v.
Proof. intro I. induction 1; [apply ra_refl; auto | eapply ra_step; eauto]. Qed.
Lemma reach_avoid_nil g u v : reach_avoid g [] u v <-> reach g u v.
Proof.
  split; [apply reach_avoid_reach|].
  induction 1; [apply ra_refl; easy | eapply ra_step; eauto].
Qed.
Lemma reach_avoid_trans g D u v w : reach_avoid g D u v -> reach_avoid g D v w -> reach_avoid g D u w.
Proof. intros H1 H2. induction H2; [assumption|]. eapply ra_step; eauto. Qed.
Lemma reach_avoid_end g D u v : reach_avoid g D u v -> ~ In v D.
Proof. now destruct 1. Qed.
Lemma reach_avoid_start g D u v : reach_avoid g D u v -> ~ In u D.
Proof. now induction 1. Qed.
Lemma reach_lt g u v : wf_graph g -> u < g_n g -> reach g u v -> v < g_n g.
Proof.
  intros W L. induction 1; [assumption|].
  destruct H0 as (e & He & <-). now apply (W _ _ He).
Qed.

Lemma NoDup_app_intro {T} (a b : list T) : NoDup a -> NoDup b -> (forall x, In x a -> ~ In x b) -> NoDup (a ++ b).
Proof.
  induction a as [|x a IH]; cbn; intros Na Nb H; [assumption|]. inversion_clear Na. constructor.
  - rewrite in_app_iff. intros [?|?]; [contradiction|]. apply (H x); auto.
  - apply IH; auto.
Qed.

(** ** Iterative against recursive *)
Section Recursive.
  Context {S : Type}.
  Variable V : visitor S.
  Variable g : graph.
  Variable term : nat -> bool.
  Local Notation rec := (recurse V g term).
  Local Notation loop := (dfs_loop V g term).

  Lemma scan_mono f1 f2 u :
    (forall v s r, f1 v s = Ok r -> f2 v s = Ok r) ->
    forall es s r, scan V f1 u es s = Ok r -> scan V f2 u es s = Ok r.
  Proof.
    intro M. induction es as [|e es IH]; intros s r; [easy|]. cbn [scan].
    destruct (v_disc V s (e_tgt e)); [apply IH|].
    intro H. apply bind_Ok in H. destruct H as ((s1, b) & E & H).
    rewrite (M _ _ _ E). cbn [bind]. destruct b; [assumption | now apply IH].
  Qed.
  Lemma recurse_S f : forall u s r, rec f u s = Ok r -> rec (Datatypes.S f) u s = Ok r.
  Proof.
    induction f as [|f IH]; intros u s r; [easy|].
    intro H. cbn [recurse] in H. change (rec (Datatypes.S (Datatypes.S f)) u s) with
      (let s := v_step V (EStart u) (v_step V (EDiscover u) s) in
       if term u then Ok (s, true) else scan V (rec (Datatypes.S f)) u (g_out g u) s).
    cbv zeta in *. destruct (term u); [assumption|].
    revert H. apply scan_mono. assumption.
  Qed.
  Lemma recurse_mono f f' u s r : f <= f' -> rec f u s = Ok r -> rec f' u s = Ok r.
  Proof. induction 1; [easy|]. intro. apply recurse_S. auto. Qed.

  (** What the loop does after the vertex [u] is finished. *)
  Definition after (m : nat) (s : S) (u : nat) (stack : list (nat * list edge)) : outcome (S * nat) :=
    match stack with
    | [] => Ok (s, u)
    | (_, []) :: _ => UB
    | (u, e :: it) :: stack => loop m (v_step V (ETreeFinish e) s) u it stack
    end.

  Lemma recurse_loop f :
    forall es u s s' b, scan V (rec f) u es s = Ok (s', b) ->
      exists k x, (b = true -> term x = true) /\
        forall m stack, loop (k + m) s u es stack = if b then Ok (s', x) else after m s' u stack.
  Proof.
    induction f as [|f IHf].
    - induction es as [|e es IH]; intros u s s' b; cbn [scan].
      + intro H. injection H as <- <-. exists 1, 0. split; [easy|]. intros m stack. cbn. now destruct stack as [|[? [|]]].
      + destruct (v_disc V s (e_tgt e)) eqn:Ed; [|easy].
        intro H. destruct (IH _ _ _ _ H) as (k & x & T & L). exists (1 + k), x. split; [assumption|].
        intros m stack. cbn. rewrite Ed. apply L.
    - induction es as [|e es IH]; intros u s s' b; cbn [scan].
      + intro H. injection H as <- <-. exists 1, 0. split; [easy|]. intros m stack. cbn. now destruct stack as [|[? [|]]].
      + destruct (v_disc V s (e_tgt e)) eqn:Ed.
        * intro H. destruct (IH _ _ _ _ H) as (k & x & T & L). exists (1 + k), x. split; [assumption|].
          intros m stack. cbn. rewrite Ed. apply L.
        * intro H. apply bind_Ok in H. destruct H as ((s1, b1) & E & H). cbn [recurse] in E.
          cbv zeta in E. set (s0 := v_step V (EStart (e_tgt e)) _) in E.
          destruct (term (e_tgt e)) eqn:Et.
          -- injection E as <- <-. injection H as <- <-.
             exists 1, (e_tgt e). split; [easy|]. intros m stack. cbn. rewrite Ed, Et. reflexivity.
          -- apply IHf in E. destruct E as (k1 & x1 & T1 & L1). destruct b1.
             ++ injection H as <- <-. exists (1 + k1), x1. split; [assumption|].
                intros m stack. cbn. rewrite Ed, Et. apply L1.
             ++ destruct (IH _ _ _ _ H) as (k2 & x2 & T2 & L2).
                exists (1 + (k1 + k2)), x2. split; [assumption|].
                intros m stack. cbn. rewrite Ed, Et. fold s0.
                replace (k1 + k2 + m) with (k1 + (k2 + m)) by lia. rewrite L1. cbn [after]. apply L2.
  Qed.

  Lemma loop_recurse m :
    forall s u es stack r, loop m s u es stack = Ok r ->
      exists f s' b, (forall f', f <= f' -> scan V (rec f') u es s = Ok (s', b)) /\
        if b then fst r = s' /\ term (snd r) = true
        else exists m', m' < m /\ after m' s' u stack = Ok r.
  Proof.
    induction m as [m IHm] using lt_wf_ind. intros s u es stack r.
    destruct m as [|m]; [easy|]. cbn [dfs_loop]. destruct es as [|e es].
    - intro H. exists 0. eexists. exists false. split; [reflexivity|].
      exists m. split; [lia|]. now destruct stack as [|[? [|]]].
    - cbn [scan]. destruct (v_disc V s (e_tgt e)) eqn:Ed.
      + intro H. apply IHm in H; [|lia]. destruct H as (f & s' & b & F & B).
        exists f, s', b. split; [assumption|]. destruct b; [assumption|].
        destruct B as (m' & ? & ?). exists m'. split; [lia | assumption].
      + cbv zeta. set (s0 := v_step V (EStart (e_tgt e)) _). destruct (term (e_tgt e)) eqn:Et.
        * intro H. injection H as <-. exists 1, s0, true. split; [|easy].
          intros f' Hf. destruct f' as [|f']; [lia|]. cbn [recurse]. rewrite Et. reflexivity.
        * intro H. apply IHm in H; [|lia]. destruct H as (f1 & s1 & b1 & F1 & B1). destruct b1.
          -- exists (1 + f1), s1, true. split; [|assumption].
             intros f' Hf. destruct f' as [|f']; [lia|]. cbn [recurse]. rewrite Et. fold s0.
             rewrite F1 by lia. reflexivity.
          -- destruct B1 as (m' & Hm & A). cbn [after] in A. apply IHm in A; [|lia].
             destruct A as (f2 & s2 & b2 & F2 & B2). exists (1 + f1 + f2), s2, b2. split.
             ++ intros f' Hf. destruct f' as [|f']; [lia|]. cbn [recurse]. rewrite Et. fold s0.
                rewrite F1 by lia. cbn [bind]. rewrite <- (F2 (Datatypes.S f')) by lia. reflexivity.
             ++ destruct b2; [assumption|]. destruct B2 as (m2 & ? & ?). exists m2. split; [lia | assumption].
  Qed.

  (** The run of the recursive version from the start of a search. *)
  Definition recursive_visit (fuel : nat) (s : S) (u : nat) : outcome (S * bool) :=
    rec fuel u (v_step V (ESearchStart u) s).

  Lemma recursive_iterative fuel s u s' b :
    recursive_visit fuel s u = Ok (s', b) ->
    exists k x, (if b then term x = true else x = u) /\
      forall fuel', k <= fuel' -> dfs_visit V g term fuel' s u = Ok (v_step V (ESearchFinish (Some x)) s').
  Proof.
    unfold recursive_visit, dfs_visit. destruct fuel as [|fuel]; [easy|]. cbn [recurse].
    cbv zeta. set (s0 := v_step V (EStart u) _). destruct (term u) eqn:Et.
    - intro H. injection H as <- <-. exists 0, u. split; [assumption|]. reflexivity.
    - intro H. apply recurse_loop in H. destruct H as (k & x & T & L).
      exists k, (if b then x else u). split; [destruct b; auto|].
      intros fuel' Hf. replace fuel' with (k + (fuel' - k)) by lia. rewrite L. now destruct b.
  Qed.
  Lemma iterative_recursive fuel s u s'' :
    dfs_visit V g term fuel s u = Ok s'' ->
    exists k s' (b : bool) x, s'' = v_step V (ESearchFinish (Some x)) s' /\
      (if b then term x = true else x = u) /\
      forall fuel', k <= fuel' -> recursive_visit fuel' s u = Ok (s', b).
  Proof.
    unfold recursive_visit, dfs_visit. cbv zeta. set (s0 := v_step V (EStart u) _). destruct (term u) eqn:Et.
    - intro H. injection H as <-. exists 1, s0, true, u. split; [reflexivity|]. split; [assumption|].
      intros [|f]; [lia|]. cbn [recurse]. now rewrite Et.
    - intro H. apply bind_Ok in H. destruct H as ((s1, x) & E & H). injection H as <-.
      apply loop_recurse in E. destruct E as (f & s' & b & F & B). exists (1 + f), s', b, x. cbn [fst snd] in B.
      destruct b.
      + destruct B as (-> & T). split; [reflexivity|]. split; [assumption|].
        intros [|f']; [lia|]. intro. cbn [recurse]. rewrite Et. apply F. lia.
      + destruct B as (m' & _ & A). cbn in A. injection A as <- <-. split; [reflexivity|]. split; [reflexivity|].
        intros [|f']; [lia|]. intro. cbn [recurse]. rewrite Et. apply F. lia.
  Qed.
End Recursive.

(** ** Big-step description *)
Section BigStep.
  Variable g : graph.

  (** [visit u D t D']: with [D] already discovered (latest first), the visit of
      [u] emits [t] and leaves [D'] discovered.  [scan_es u es D t D']: the same
      for the remaining edges [es] of [u]. *)
  Inductive visit : nat -> list nat -> list event -> list nat -> Prop :=
  | visit_intro u D t D' :
      scan_es u (g_out g u) (u :: D) t D' -> visit u D (EDiscover u :: EStart u :: t) D'
  with scan_es : nat -> list edge -> list nat -> list event -> list nat -> Prop :=
  | scan_nil u D : scan_es u [] D [EFinish u] D
  | scan_non u e es D t D' :
      In (e_tgt e) D -> scan_es u es D t D' -> scan_es u (e :: es) D (ENonTree e :: t) D'
  | scan_tree u e es D t1 D1 t2 D' :
      ~ In (e_tgt e) D -> visit (e_tgt e) D t1 D1 -> scan_es u es D1 t2 D' ->
      scan_es u (e :: es) D (ETreeStart e :: t1 ++ ETreeFinish e :: t2) D'.
  Inductive forest : list nat -> list nat -> list event -> list nat -> Prop :=
  | forest_nil D : forest [] D [] D
  | forest_skip r rs D t D' : In r D -> forest rs D t D' -> forest (r :: rs) D t D'
  | forest_visit r rs D t1 D1 t2 D' :
      ~ In r D -> visit r D t1 D1 -> forest rs D1 t2 D' ->
      forest (r :: rs) D (ESearchStart r :: t1 ++ ESearchFinish (Some r) :: t2) D'.

  Scheme visit_min := Minimality for visit Sort Prop
    with scan_min := Minimality for scan_es Sort Prop.
  Combined Scheme visit_scan_ind from visit_min, scan_min.

  (** *** The set of discovered vertices *)
  Definition discovers (t : list event) : list nat := flat_map (fun ev => match ev with EDiscover u => [u] | _ => [] end) t.
  Definition starts (t : list event) : list nat := flat_map (fun ev => match ev with EStart u => [u] | _ => [] end) t.
  Definition finishes (t : list event) : list nat := flat_map (fun ev => match ev with EFinish u => [u] | _ => [] end) t.
  (** Edges that were looked at. *)
  Definition examined (t : list event) : list edge :=
    flat_map (fun ev => match ev with ETreeStart e => [e] | ENonTree e => [e] | _ => [] end) t.
  Lemma discovers_app a b : discovers (a ++ b) = discovers a ++ discovers b. Proof. apply flat_map_app. Qed.
  Lemma starts_app a b : starts (a ++ b) = starts a ++ starts b. Proof. apply flat_map_app. Qed.
  Lemma finishes_app a b : finishes (a ++ b) = finishes a ++ finishes b. Proof. apply flat_map_app. Qed.
  Lemma examined_app a b : examined (a ++ b) = examined a ++ examined b. Proof. apply flat_map_app. Qed.

  Lemma visit_scan_discovers :
    (forall u D t D', visit u D t D' -> D' = rev (discovers t) ++ D) /\
    (forall u es D t D', scan_es u es D t D' -> D' = rev (discovers t) ++ D).
  Proof.
    apply visit_scan_ind.
    - intros u D t D' _ ->. cbn. now rewrite <- app_assoc.
    - reflexivity.
    - intros u e es D t D' _ _ ->. reflexivity.
    - intros u e es D t1 D1 t2 D' _ _ -> _ ->. cbn. fold (discovers (t1 ++ ETreeFinish e :: t2)).
      rewrite discovers_app, rev_app_distr, <- app_assoc. reflexivity.
  Qed.
  Lemma visit_incl u D t D' : visit u D t D' -> incl D D'.
  Proof. intro H. apply (proj1 visit_scan_discovers) in H. subst. apply incl_appr, incl_refl. Qed.
  Lemma scan_incl u es D t D' : scan_es u es D t D' -> incl D D'.
  Proof. intro H. apply (proj2 visit_scan_discovers) in H. subst. apply incl_appr, incl_refl. Qed.
  Lemma visit_in u D t D' v : visit u D t D' -> In v D' <-> In v (discovers t) \/ In v D.
  Proof. intro H. apply (proj1 visit_scan_discovers) in H. subst. now rewrite in_app_iff, <- in_rev. Qed.
  Lemma scan_in u es D t D' v : scan_es u es D t D' -> In v D' <-> In v (discovers t) \/ In v D.
  Proof. intro H. apply (proj2 visit_scan_discovers) in H. subst. now rewrite in_app_iff, <- in_rev. Qed.
  Lemma visit_discovers_root u D t D' : visit u D t D' -> In u (discovers t).
  Proof. intro H. inversion H; subst. now left. Qed.

  (** The discovered vertices are new and distinct. *)
  Lemma visit_scan_new :
    (forall u D t D', visit u D t D' -> ~ In u D -> NoDup (discovers t) /\ forall v, In v (discovers t) -> ~ In v D) /\
    (forall u es D t D', scan_es u es D t D' -> NoDup (discovers t) /\ forall v, In v (discovers t) -> ~ In v D).
  Proof.
    apply visit_scan_ind.
    - intros u D t D' _ (N & F) Hu. cbn. fold (discovers t). split.
      + constructor; [|assumption]. intro Hi. apply F in Hi. apply Hi. now left.
      + intros v [<-|Hi]; [assumption|]. intro. apply (F v); [assumption | now right].
    - intros u D. cbn. split; [constructor | easy].
    - intros u e es D t D' _ _ H. exact H.
    - intros u e es D t1 D1 t2 D' Hn H1 IH1 H2 (N2 & F2). destruct (IH1 Hn) as (N1 & F1).
      cbn. fold (discovers (t1 ++ ETreeFinish e :: t2)). rewrite discovers_app. cbn. fold (discovers t2). split.
      + apply NoDup_app_intro; [assumption | assumption |].
        intros v Hv Hv2. apply (F2 v Hv2). apply (visit_in _ _ _ _ _ H1). now left.
      + intros v Hv. apply in_app_iff in Hv. destruct Hv as [Hv|Hv]; [now apply F1|].
        intro Hd. apply (F2 v Hv). now apply (visit_incl _ _ _ _ H1).
  Qed.
  Lemma visit_scan_starts :
    (forall u D t D', visit u D t D' -> starts t = discovers t /\ Permutation (finishes t) (discovers t)) /\
    (forall u es D t D', scan_es u es D t D' -> starts t = discovers t /\ Permutation (finishes t) (u :: discovers t)).
  Proof.
    apply visit_scan_ind.
    - intros u D t D' _ (A & B). cbn. fold (discovers t) (starts t) (finishes t). rewrite A. now split.
    - intros u D. cbn. now split.
    - intros u e es D t D' _ _ H. exact H.
    - intros u e es D t1 D1 t2 D' _ _ (A1 & B1) _ (A2 & B2).
      cbn. fold (discovers (t1 ++ ETreeFinish e :: t2)) (starts (t1 ++ ETreeFinish e :: t2)) (finishes (t1 ++ ETreeFinish e :: t2)).
      rewrite discovers_app, starts_app, finishes_app. cbn. fold (discovers t2) (starts t2) (finishes t2).
      rewrite A1, A2. split; [reflexivity|]. rewrite B1, B2. symmetry. apply Permutation_middle.
  Qed.
  (** Every edge of a visited vertex is looked at exactly once. *)
  Lemma visit_scan_examined :
    (forall u D t D', visit u D t D' -> Permutation (examined t) (flat_map (g_out g) (discovers t))) /\
    (forall u es D t D', scan_es u es D t D' -> Permutation (examined t) (es ++ flat_map (g_out g) (discovers t))).
  Proof.
    apply visit_scan_ind.
    - intros u D t D' _ H. exact H.
    - reflexivity.
    - intros u e es D t D' _ _ H. cbn. now constructor.
    - intros u e es D t1 D1 t2 D' _ _ H1 _ H2.
      cbn. fold (discovers (t1 ++ ETreeFinish e :: t2)) (examined (t1 ++ ETreeFinish e :: t2)).
      rewrite discovers_app, examined_app, flat_map_app. cbn. fold (discovers t2) (examined t2).
      constructor. rewrite H1, H2. rewrite !app_assoc. apply Permutation_app_tail, Permutation_app_comm.
  Qed.

  (** *** White path theorem *)
  Lemma visit_scan_closed :
    (forall u D t D', visit u D t D' -> forall v w, In v (discovers t) -> arc g v w -> In w D') /\
    (forall u es D t D', scan_es u es D t D' ->
       (forall e, In e es -> In (e_tgt e) D') /\ forall v w, In v (discovers t) -> arc g v w -> In w D').
  Proof.
    apply visit_scan_ind.
    - intros u D t D' _ (A & B) v w Hv (e & He & <-). cbn in Hv. destruct Hv as [<-|Hv]; [now apply A|].
      apply (B v); [assumption | now exists e].
    - intros u D. split; easy.
    - intros u e es D t D' Hi H (A & B). split; [|exact B].
      intros e' [<-|He]; [now apply (scan_incl _ _ _ _ _ H) | now apply A].
    - intros u e es D t1 D1 t2 D' _ H1 IH1 H2 (A & B). split.
      + intros e' [<-|He]; [|now apply A]. apply (scan_incl _ _ _ _ _ H2).
        apply (visit_in _ _ _ _ _ H1). left. now apply (visit_discovers_root _ _ _ _ H1).
      + intros v w Hv Ha. cbn in Hv. fold (discovers (t1 ++ ETreeFinish e :: t2)) in Hv.
        rewrite discovers_app in Hv. apply in_app_iff in Hv. destruct Hv as [Hv|Hv].
        * apply (scan_incl _ _ _ _ _ H2). now apply (IH1 v).
        * now apply (B v).
  Qed.
  Lemma visit_scan_reach :
    (forall u D t D', visit u D t D' -> ~ In u D -> forall v, In v (discovers t) -> reach_avoid g D u v) /\
    (forall u es D t D', scan_es u es D t D' -> forall v, In v (discovers t) ->
       exists e, In e es /\ reach_avoid g D (e_tgt e) v).
  Proof.
    apply visit_scan_ind.
    - intros u D t D' H IH Hu v Hv. cbn in Hv. destruct Hv as [<-|Hv]; [now apply ra_refl|].
      destruct (IH v Hv) as (e & He & R). apply reach_avoid_trans with (e_tgt e).
      + eapply ra_step; [now apply ra_refl | now exists e |].
        apply reach_avoid_start in R. intro. apply R. now right.
      + revert R. apply reach_avoid_mono. intros x Hx. now right.
    - easy.
    - intros u e es D t D' _ _ IH v Hv. destruct (IH v Hv) as (e' & He & R). exists e'. split; [now right | assumption].
    - intros u e es D t1 D1 t2 D' Hn H1 IH1 H2 IH2 v Hv.
      cbn in Hv. fold (discovers (t1 ++ ETreeFinish e :: t2)) in Hv.
      rewrite discovers_app in Hv. apply in_app_iff in Hv. destruct Hv as [Hv|Hv].
      + exists e. split; [now left | now apply IH1].
      + destruct (IH2 v Hv) as (e' & He & R). exists e'. split; [now right|].
        revert R. apply reach_avoid_mono. apply (visit_incl _ _ _ _ H1).
  Qed.
  Theorem white_path u D t D' v : visit u D t D' -> ~ In u D -> In v (discovers t) <-> reach_avoid g D u v.
  Proof.
    intros H Hu. split; [now apply (proj1 visit_scan_reach _ _ _ _ H)|].
    induction 1 as [|x w R IH Ha Hw].
    - now apply (visit_discovers_root _ _ _ _ H).
    - specialize (IH). pose proof (proj1 visit_scan_closed _ _ _ _ H x w IH Ha) as Hi.
      apply (visit_in _ _ _ _ _ H) in Hi. tauto.
  Qed.

  (** *** Existence *)
  Definition undiscovered (D : list nat) : list nat := filter (fun v => negb (existsb (Nat.eqb v) D)) (vertices g).
  Lemma existsb_eqb v D : existsb (Nat.eqb v) D = true <-> In v D.
  Proof.
    rewrite existsb_exists. split; [intros (x & Hx & E); apply Nat.eqb_eq in E; now subst|].
    intro. exists v. now rewrite Nat.eqb_refl.
  Qed.
  Lemma undiscovered_in v D : In v (undiscovered D) <-> v < g_n g /\ ~ In v D.
  Proof.
    unfold undiscovered, vertices. rewrite filter_In, in_seq, negb_true_iff, <- not_true_iff_false, existsb_eqb. intuition lia.
  Qed.
  Lemma undiscovered_incl D D' : incl D D' -> length (undiscovered D') <= length (undiscovered D).
  Proof.
    intro I. apply NoDup_incl_length; [apply NoDup_filter, seq_NoDup|].
    intros v Hv. apply undiscovered_in in Hv. apply undiscovered_in. firstorder.
  Qed.
  Lemma undiscovered_cons u D : u < g_n g -> ~ In u D -> length (undiscovered (u :: D)) < length (undiscovered D).
  Proof.
    intros L N. assert (NoDup (u :: undiscovered (u :: D))) as ND.
    { constructor; [rewrite undiscovered_in; intros [_ X]; apply X; now left | apply NoDup_filter, seq_NoDup]. }
    apply (NoDup_incl_length ND). intros v [<-|Hv]; apply undiscovered_in; [tauto|].
    apply undiscovered_in in Hv. destruct Hv as [? X]. split; [assumption|]. intro. apply X. now right.
  Qed.
  Hypothesis wf : wf_graph g.
  Lemma visit_exists_aux k :
    forall u D, length (undiscovered D) <= k -> u < g_n g -> ~ In u D -> exists t D', visit u D t D'.
  Proof.
    induction k as [|k IH]; intros u D Hk Hu Hn.
    - pose proof (undiscovered_cons u D Hu Hn). lia.
    - assert (forall es D, length (undiscovered D) <= k -> (forall e, In e es -> e_tgt e < g_n g) ->
        exists t D', scan_es u es D t D') as Hs.
      { induction es as [|e es IHes]; intros D1 H1 Hes.
        - eexists _, _. constructor.
        - destruct (in_dec Nat.eq_dec (e_tgt e) D1) as [Hi|Hi].
          + destruct (IHes D1 H1) as (t & D' & H); [intros; apply Hes; now right|].
            eexists _, _. eapply scan_non; eauto.
          + destruct (IH (e_tgt e) D1 H1) as (t1 & D2 & Hv); [apply Hes; now left | assumption |].
            destruct (IHes D2) as (t2 & D' & H).
            * apply visit_incl in Hv. apply undiscovered_incl in Hv. lia.
            * intros; apply Hes; now right.
            * eexists _, _. eapply scan_tree; eauto. }
      destruct (Hs (g_out g u) (u :: D)) as (t & D' & H).
      + pose proof (undiscovered_cons u D Hu Hn). lia.
      + intros e He. now apply (wf u e).
      + eexists _, _. constructor. eauto.
  Qed.
  Lemma visit_exists u D : u < g_n g -> ~ In u D -> exists t D', visit u D t D'.
  Proof. now apply visit_exists_aux with (length (undiscovered D)). Qed.
  Lemma forest_exists rs : forall D, (forall r, In r rs -> r < g_n g) -> exists t D', forest rs D t D'.
  Proof.
    induction rs as [|r rs IH]; intros D H.
    - eexists _, _. constructor.
    - destruct (in_dec Nat.eq_dec r D) as [Hi|Hi].
      + destruct (IH D) as (t & D' & F); [intros; apply H; now right|]. eexists _, _. eapply forest_skip; eauto.
      + destruct (visit_exists r D) as (t1 & D1 & Hv); [apply H; now left | assumption |].
        destruct (IH D1) as (t & D' & F); [intros; apply H; now right|]. eexists _, _. eapply forest_visit; eauto.
  Qed.
  Lemma visit_lt u D t D' v : visit u D t D' -> ~ In u D -> u < g_n g -> In v (discovers t) -> v < g_n g.
  Proof.
    intros H Hn Hu Hv. apply (proj1 visit_scan_reach _ _ _ _ H Hn), reach_avoid_reach in Hv.
    revert Hv. now apply reach_lt.
  Qed.

  Lemma forest_in rs D t D' v : forest rs D t D' -> In v D' <-> In v (discovers t) \/ In v D.
  Proof.
    induction 1 as [D|r rs D t D' Hi _ IH|r rs D t1 D1 t2 D' Hn H1 H2 IH].
    - cbn. tauto.
    - exact IH.
    - rewrite IH. cbn. fold (discovers (t1 ++ ESearchFinish (Some r) :: t2)). rewrite discovers_app, in_app_iff.
      cbn. fold (discovers t2). rewrite (visit_in _ _ _ _ _ H1). tauto.
  Qed.
  Lemma forest_roots rs D t D' r : forest rs D t D' -> In r rs -> In r D'.
  Proof.
    induction 1 as [D|r' rs D t D' Hi F IH|r' rs D t1 D1 t2 D' Hn H1 H2 IH]; [easy | |]; intros [<-|Hr].
    - apply (forest_in _ _ _ _ _ F). now right.
    - auto.
    - apply (forest_in _ _ _ _ _ H2). right. apply (visit_in _ _ _ _ _ H1). left. now apply (visit_discovers_root _ _ _ _ H1).
    - auto.
  Qed.
  Lemma forest_new rs D t D' : forest rs D t D' ->
    NoDup (discovers t) /\ (forall v, In v (discovers t) -> ~ In v D) /\
    Permutation (starts t) (discovers t) /\ Permutation (finishes t) (discovers t) /\
    Permutation (examined t) (flat_map (g_out g) (discovers t)).
  Proof.
    induction 1 as [D|r rs D t D' Hi F IH|r rs D t1 D1 t2 D' Hn H1 H2 (N & F & A & B & C)].
    - cbn. repeat split; auto. constructor.
    - exact IH.
    - destruct (proj1 visit_scan_new _ _ _ _ H1 Hn) as (N1 & F1).
      destruct (proj1 visit_scan_starts _ _ _ _ H1) as (A1 & B1).
      pose proof (proj1 visit_scan_examined _ _ _ _ H1) as C1.
      cbn. fold (discovers (t1 ++ ESearchFinish (Some r) :: t2)) (starts (t1 ++ ESearchFinish (Some r) :: t2))
        (finishes (t1 ++ ESearchFinish (Some r) :: t2)) (examined (t1 ++ ESearchFinish (Some r) :: t2)).
      rewrite discovers_app, starts_app, finishes_app, examined_app.
      cbn. fold (discovers t2) (starts t2) (finishes t2) (examined t2).
      rewrite A1, A, B1, B, C1, C, flat_map_app. repeat split; auto.
      + apply NoDup_app_intro; auto. intros v Hv Hv2. apply (F v Hv2). apply (visit_in _ _ _ _ _ H1). now left.
      + intros v Hv. apply in_app_iff in Hv. destruct Hv as [Hv|Hv]; [now apply F1|].
        intro. apply (F v Hv). now apply (visit_incl _ _ _ _ H1).
  Qed.
End BigStep.

(** ** The searches follow the big-step description *)
Definition run {S} (V : visitor S) (t : list event) (s : S) : S := fold_left (fun s ev => v_step V ev s) t s.
Lemma run_app {S} (V : visitor S) a b s : run V (a ++ b) s = run V b (run V a s).
Proof. apply fold_left_app. Qed.

(** A visitor is disciplined if some invariant [R] relating the discovered
    vertices to the state implies that is_vertex_discovered is exact. *)
Record disciplined (g : graph) {S} (V : visitor S) (R : list nat -> S -> Prop) : Prop := {
  d_disc D s v : R D s -> v < g_n g -> v_disc V s v = true <-> In v D;
  d_root D s u : R D s -> u < g_n g -> ~ In u D ->
    R (u :: D) (v_step V (EStart u) (v_step V (EDiscover u) (v_step V (ESearchStart u) s)));
  d_tree D s e : R D s -> In (e_src e) D -> e_tgt e < g_n g -> ~ In (e_tgt e) D ->
    R (e_tgt e :: D) (v_step V (EStart (e_tgt e)) (v_step V (EDiscover (e_tgt e)) (v_step V (ETreeStart e) s)));
  d_non D s e : R D s -> In (e_src e) D -> In (e_tgt e) D -> R D (v_step V (ENonTree e) s);
  d_tfin D s e : R D s -> In (e_src e) D -> In (e_tgt e) D -> R D (v_step V (ETreeFinish e) s);
  d_fin D s u : R D s -> In u D -> R D (v_step V (EFinish u) s);
  d_sfin D s u : R D s -> In u D -> R D (v_step V (ESearchFinish (Some u)) s) }.

Section Refine.
  Context {S : Type}.
  Variable V : visitor S.
  Variable g : graph.
  Variable R : list nat -> S -> Prop.
  Hypothesis wf : wf_graph g.
  Hypothesis disc : disciplined g V R.

  Lemma visit_scan_run :
    (forall u D t D', visit g u D t D' -> forall s, u < g_n g ->
       R (u :: D) (v_step V (EStart u) (v_step V (EDiscover u) s)) ->
       R D' (run V t s) /\
       exists k, forall f, k <= f -> recurse V g always_false f u s = Ok (run V t s, false)) /\
    (forall u es D t D', scan_es g u es D t D' -> forall s,
       R D s -> In u D -> incl es (g_out g u) ->
       R D' (run V t s) /\
       exists k, forall f, k <= f -> scan V (recurse V g always_false f) u es s = Ok (run V t s, false)).
  Proof.
    apply visit_scan_ind.
    - intros u D t D' _ IH s Hu H. destruct (IH _ H) as (A & k & B); [now left | apply incl_refl |].
      split; [exact A|]. exists (1 + k). intros [|f] Hf; [lia|]. cbn [recurse always_false]. apply B. lia.
    - intros u D s H Hu _. split; [now apply (d_fin _ _ _ disc)|]. exists 0. reflexivity.
    - intros u e es D t D' Hi _ IH s H Hu Hs.
      assert (In e (g_out g u)) as He by (apply Hs; now left). destruct (wf _ _ He) as (E1 & E2).
      destruct (IH (v_step V (ENonTree e) s)) as (A & k & B).
      + apply (d_non _ _ _ disc); [assumption | now rewrite E1 | assumption].
      + assumption.
      + intros x Hx. apply Hs. now right.
      + split; [exact A|]. exists k. intros f Hf. cbn [scan].
        rewrite (proj2 (d_disc _ _ _ disc D s (e_tgt e) H E2) Hi). now apply B.
    - intros u e es D t1 D1 t2 D' Hn H1 IH1 H2 IH2 s H Hu Hs.
      assert (In e (g_out g u)) as He by (apply Hs; now left). destruct (wf _ _ He) as (E1 & E2).
      destruct (IH1 (v_step V (ETreeStart e) s) E2) as (A1 & k1 & B1).
      { apply (d_tree _ _ _ disc); [assumption | now rewrite E1 | assumption | assumption]. }
      destruct (IH2 (v_step V (ETreeFinish e) (run V t1 (v_step V (ETreeStart e) s)))) as (A2 & k2 & B2).
      { apply (d_tfin _ _ _ disc); [assumption | |].
        - rewrite E1. now apply (visit_incl _ _ _ _ _ H1).
        - apply (visit_in _ _ _ _ _ _ H1). left. now apply (visit_discovers_root _ _ _ _ _ H1). }
      { now apply (visit_incl _ _ _ _ _ H1). }
      { intros x Hx. apply Hs. now right. }
      assert (run V (ETreeStart e :: t1 ++ ETreeFinish e :: t2) s =
        run V t2 (v_step V (ETreeFinish e) (run V t1 (v_step V (ETreeStart e) s)))) as ->.
      { change (run V (t1 ++ ETreeFinish e :: t2) (v_step V (ETreeStart e) s) = run V t2 (v_step V (ETreeFinish e) (run V t1 (v_step V (ETreeStart e) s)))).
        now rewrite run_app. }
      split; [exact A2|]. exists (k1 + k2). intros f Hf. cbn [scan].
      assert (v_disc V s (e_tgt e) = false) as ->.
      { apply not_true_iff_false. now rewrite (d_disc _ _ _ disc D s (e_tgt e) H E2). }
      rewrite B1 by lia. cbn [bind]. apply B2. lia.
  Qed.

  Lemma dfs_visit_run u D t D' s : visit g u D t D' -> u < g_n g -> ~ In u D -> R D s ->
    R D' (run V (ESearchStart u :: t ++ [ESearchFinish (Some u)]) s) /\
    exists k, forall f, k <= f -> dfs_visit V g always_false f s u = Ok (run V (ESearchStart u :: t ++ [ESearchFinish (Some u)]) s).
  Proof.
    intros H Hu Hn HR.
    destruct (proj1 visit_scan_run _ _ _ _ H (v_step V (ESearchStart u) s) Hu) as (A & k & B).
    { now apply (d_root _ _ _ disc). }
    change (run V (ESearchStart u :: t ++ [ESearchFinish (Some u)]) s) with
      (run V (t ++ [ESearchFinish (Some u)]) (v_step V (ESearchStart u) s)).
    rewrite run_app. split.
    - apply (d_sfin _ _ _ disc); [assumption|]. apply (visit_in _ _ _ _ _ _ H). left. now apply (visit_discovers_root _ _ _ _ _ H).
    - destruct (recursive_iterative V g always_false k s u _ _ (B k (le_n k))) as (k' & x & -> & L).
      exists k'. exact L.
  Qed.
  Lemma dfs_roots_run rs D t D' s : forest g rs D t D' -> (forall r, In r rs -> r < g_n g) -> R D s ->
    R D' (run V t s) /\ exists k, forall f, k <= f -> dfs_roots V g always_false f s rs = Ok (run V t s).
  Proof.
    intro F. revert s. induction F as [D|r rs D t D' Hi F IH|r rs D t1 D1 t2 D' Hn H1 H2 IH]; intros s Hr HR.
    - split; [assumption|]. exists 0. reflexivity.
    - destruct (IH s) as (A & k & B); [intros; apply Hr; now right | assumption |].
      split; [assumption|]. exists k. intros f Hf. cbn [dfs_roots].
      rewrite (proj2 (d_disc _ _ _ disc D s r HR (Hr r (or_introl eq_refl))) Hi). now apply B.
    - destruct (dfs_visit_run r D t1 D1 s H1 (Hr r (or_introl eq_refl)) Hn HR) as (A1 & k1 & B1).
      destruct (IH (run V (ESearchStart r :: t1 ++ [ESearchFinish (Some r)]) s)) as (A & k & B); [intros; apply Hr; now right | assumption |].
      assert (run V (ESearchStart r :: t1 ++ ESearchFinish (Some r) :: t2) s =
        run V t2 (run V (ESearchStart r :: t1 ++ [ESearchFinish (Some r)]) s)) as ->.
      { rewrite <- run_app. cbn [app]. now rewrite <- app_assoc. }
      split; [assumption|]. exists (k1 + k). intros f Hf. cbn [dfs_roots].
      assert (v_disc V s r = false) as ->.
      { apply not_true_iff_false. now rewrite (d_disc _ _ _ disc D s r HR (Hr r (or_introl eq_refl))). }
      rewrite B1 by lia. cbn [bind]. apply B. lia.
  Qed.

  (** A single search. *)
  Theorem dfs_from_run s u : R [] (init_all V g s) -> u < g_n g ->
    exists t D', visit g u [] t D' /\
      let s' := run V (ESearchStart u :: t ++ [ESearchFinish (Some u)]) (init_all V g s) in
      R D' s' /\ exists k, forall f, k <= f -> dfs_from V g always_false f s u = Ok s'.
  Proof.
    intros H Hu. destruct (visit_exists g wf u [] Hu) as (t & D' & Hv); [easy|]. exists t, D'.
    split; [assumption|]. apply (dfs_visit_run u [] t D' _ Hv Hu); easy.
  Qed.
  (** A search of the whole graph. *)
  Theorem dfs_all_run s : R [] (init_all V g s) ->
    exists t D', forest g (vertices g) [] t D' /\
      let s' := run V t (init_all V g s) in
      R D' s' /\ exists k, forall f, k <= f -> dfs_all V g always_false f s = Ok s'.
  Proof.
    intros H. assert (forall r, In r (vertices g) -> r < g_n g) as L.
    { intros r Hr. unfold vertices in Hr. apply in_seq in Hr. lia. }
    destruct (forest_exists g wf (vertices g) [] L) as (t & D' & F). exists t, D'.
    split; [assumption|]. now apply (dfs_roots_run _ [] t D').
  Qed.
End Refine.
