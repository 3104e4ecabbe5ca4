(** Proofs about BoundedModel.v and the number of steps of the searches. *)
From Coq Require Import ZArith List Bool PeanoNat Lia Permutation.
From Verif Require Import Outcome GraphModel DfsProofs DfsResults BfsProofs BoundedModel.
Import ListNotations.

Section Bfs.
  Context {S : Type}.
  Variable V : visitor S.
  Variable g : graph.
  Variable cap : nat.
  Variable R : list nat -> S -> Prop.
  Hypothesis wf : wf_graph g.
  Hypothesis disc : bfs_disciplined g V R.

  Lemma bfs_edges_grows s q es s' q' : bfs_edges V always_false s q es = inl (s', q') -> length q <= length q'.
  Proof.
    revert s q. induction es as [|e es IH]; intros s q; cbn [bfs_edges]; [intros [= _ <-]; lia|].
    destruct (v_disc V s (e_tgt e)); [apply IH|]. unfold bfs_discover. cbn [always_false].
    intros H%IH. rewrite app_length in H. lia.
  Qed.
  Lemma b_edges_eq s q es s' q' : bfs_edges V always_false s q es = inl (s', q') -> length q' <= cap ->
    b_edges V always_false cap s q es = Ok (inl (s', q')).
  Proof.
    revert s q. induction es as [|e es IH]; intros s q; cbn [bfs_edges b_edges]; [now intros [= <- <-]|].
    destruct (v_disc V s (e_tgt e)); [apply IH|]. unfold bfs_discover, b_discover, room. cbn [always_false].
    intros H L. pose proof (bfs_edges_grows _ _ _ _ _ H) as G. rewrite app_length in G. cbn [length] in G.
    rewrite (proj2 (Nat.ltb_lt _ _)) by lia. cbn [bind]. now apply IH.
  Qed.
  Lemma bfs_sources_grows s q src s' q' : bfs_sources V always_false s q src = inl (s', q') -> length q <= length q'.
  Proof.
    revert s q. induction src as [|e es IH]; intros s q; cbn [bfs_sources]; [intros [= _ <-]; lia|].
    unfold bfs_discover. cbn [always_false]. intros H%IH. rewrite app_length in H. lia.
  Qed.
  Lemma b_sources_eq s q src s' q' : bfs_sources V always_false s q src = inl (s', q') -> length q' <= cap ->
    b_sources V always_false cap s q src = Ok (inl (s', q')).
  Proof.
    revert s q. induction src as [|e es IH]; intros s q; cbn [bfs_sources b_sources]; [now intros [= <- <-]|].
    unfold bfs_discover, b_discover, room. cbn [always_false].
    intros H L. pose proof (bfs_sources_grows _ _ _ _ _ H) as G. rewrite app_length in G. cbn [length] in G.
    rewrite (proj2 (Nat.ltb_lt _ _)) by lia. cbn [bind]. now apply IH.
  Qed.
  Lemma bfs_q_incl q D t D' : bfs_q g q D t D' -> length D <= length D'.
  Proof. intros H. destruct (bfs_q_facts _ _ _ _ _ H) as (-> & _). rewrite app_length. lia. Qed.

  Lemma loop_steps q D t D' : bfs_q g q D t D' -> incl q D -> NoDup q -> NoDup D -> length D' <= cap -> forall s, R D s ->
    R D' (run V t s) /\
    (forall f, length (starts t) <= f -> bfs_loop V g always_false f s q = Ok (run V t s) /\
       b_loop V g always_false cap f s q = Ok (run V t s)) /\
    (forall f, f < length (starts t) -> bfs_loop V g always_false f s q = NoFuel).
  Proof.
    induction 1 as [D|u q D t1 qn D1 t2 D' H1 H2 IH]; intros Hq Nq ND LD s HR.
    - split; [now apply (b_sfin _ _ _ disc)|]. split; [intros [|f] _; split; reflexivity|]. cbn. lia.
    - assert (In u D) as Hu by (apply Hq; now left). inversion Nq as [|? ? Nu Nq']; subst.
      destruct (bfs_edges_run V g R wf disc u (g_out g u) D t1 qn D1 H1 (incl_refl _) Hu (v_step V (EStart u) s) q) as (A & B).
      { now apply (b_start _ _ _ disc). }
      destruct (bfs_es_facts _ _ _ _ _ H1) as (A1 & _ & S1 & _ & _ & N1 & F1 & _).
      assert (forall v, In v D -> In v D1) as Id by (intros; rewrite A1; apply in_app_iff; now right).
      assert (NoDup D1) as ND1.
      { rewrite A1. apply NoDup_app_intro; [now apply NoDup_rev|assumption|]. intros v Hv. apply F1. now rewrite in_rev. }
      assert (incl (q ++ qn) D1) as I1.
      { intros v Hv. apply in_app_iff in Hv. destruct Hv as [Hv|Hv]; [apply Id, Hq; now right|].
        rewrite A1. apply in_app_iff. left. now rewrite <- in_rev. }
      assert (NoDup (q ++ qn)) as Nn.
      { apply NoDup_app_intro; auto. intros v Hv Hn. apply (F1 v Hn), Hq. now right. }
      pose proof (NoDup_incl_length Nn I1) as Lq. pose proof (bfs_q_incl _ _ _ _ H2) as Li.
      assert (starts (EStart u :: t1 ++ EFinish u :: t2) = u :: starts t2) as Es.
      { change (starts (EStart u :: t1 ++ EFinish u :: t2)) with (u :: starts (t1 ++ EFinish u :: t2)).
        rewrite starts_app, S1. reflexivity. }
      destruct (IH I1 Nn ND1 LD (v_step V (EFinish u) (run V t1 (v_step V (EStart u) s)))) as (RE & E & F).
      { apply (b_fin _ _ _ disc); auto. }
      change (run V (EStart u :: t1 ++ EFinish u :: t2) s) with (run V (t1 ++ EFinish u :: t2) (v_step V (EStart u) s)).
      rewrite run_app, Es. split; [exact RE|]. split.
      + intros [|f] Hf; cbn [length] in Hf; [lia|]. cbn [bfs_loop b_loop]. rewrite A, (b_edges_eq _ _ _ _ _ A) by lia.
        cbn [bind]. apply E. lia.
      + intros [|f] Hf; cbn [length] in Hf; [reflexivity|]. cbn [bfs_loop]. rewrite A. apply F. lia.
  Qed.
  Lemma bfs_steps src t D' s : bfs_q g src (rev src) t D' -> NoDup src -> (forall v, In v src -> v < g_n g) ->
    length D' <= cap -> R [] (init_all V g s) ->
    (forall f, length (starts t) <= f ->
       bfs V g always_false f s src = Ok (run V (source_events src ++ t) (init_all V g s)) /\
       bounded_bfs V g always_false cap f s src = Ok (run V (source_events src ++ t) (init_all V g s))) /\
    (forall f, f < length (starts t) -> bfs V g always_false f s src = NoFuel).
  Proof.
    intros H N L LD HR. destruct (bfs_sources_run V g R disc src [] (init_all V g s) [] N) as (A & B); [auto | assumption |].
    rewrite app_nil_r in B. cbn [app] in A.
    destruct (loop_steps _ _ _ _ H) with (s := run V (source_events src) (init_all V g s)) as (RE & E & F); auto.
    { intros v Hv. now rewrite <- in_rev. } { now apply NoDup_rev. }
    rewrite run_app. pose proof (bfs_q_incl _ _ _ _ H) as Li. rewrite rev_length in Li.
    split.
    - intros f Hf. unfold bfs, bounded_bfs. rewrite A, (b_sources_eq _ _ _ _ _ A) by lia. cbn [bind]. now apply E.
    - intros f Hf. unfold bfs. rewrite A. now apply F.
  Qed.
End Bfs.

Definition cost (t : list event) : nat := length (finishes t) + length (examined t).
Section Dfs.
  Context {S : Type}.
  Variable V : visitor S.
  Variable g : graph.
  Variable R : list nat -> S -> Prop.
  Hypothesis wf : wf_graph g.
  Hypothesis disc : disciplined g V R.
  Local Notation rec := (recurse V g always_false).
  Local Notation loop := (dfs_loop V g always_false).
  Local Notation bloop := (fun cap => d_loop V g always_false cap).

  Definition b_after cap (m : nat) (s : S) (u : nat) (stack : list (nat * list edge)) : outcome (S * nat) :=
    match stack with
    | [] => Ok (s, u)
    | (_, []) :: _ => UB
    | (u, e :: it) :: stack => bloop cap m (v_step V (ETreeFinish e) s) u it stack
    end.
  Lemma discovers_tree e t1 t2 : discovers (ETreeStart e :: t1 ++ ETreeFinish e :: t2) = discovers t1 ++ discovers t2.
  Proof. change (discovers (t1 ++ ETreeFinish e :: t2) = discovers t1 ++ discovers t2). now rewrite discovers_app. Qed.
  Lemma cost_cons_finish u : cost [EFinish u] = 1. Proof. reflexivity. Qed.
  Lemma cost_non e t : cost (ENonTree e :: t) = 1 + cost t. Proof. unfold cost. cbn. fold (finishes t) (examined t). lia. Qed.
  Lemma cost_visit u t : cost (EDiscover u :: EStart u :: t) = cost t. Proof. reflexivity. Qed.
  Lemma cost_tree e t1 t2 : cost (ETreeStart e :: t1 ++ ETreeFinish e :: t2) = 1 + cost t1 + cost t2.
  Proof.
    unfold cost. cbn [finishes examined flat_map app]. fold (finishes (t1 ++ ETreeFinish e :: t2)) (examined (t1 ++ ETreeFinish e :: t2)).
    rewrite finishes_app, examined_app, app_length. cbn [length]. rewrite app_length.
    change (finishes (ETreeFinish e :: t2)) with (finishes t2). change (examined (ETreeFinish e :: t2)) with (examined t2). lia.
  Qed.

  Lemma visit_scan_steps :
    (forall u D t D', visit g u D t D' -> forall s, u < g_n g ->
       R (u :: D) (v_step V (EStart u) (v_step V (EDiscover u) s)) ->
       R D' (run V t s) /\
       let s0 := v_step V (EStart u) (v_step V (EDiscover u) s) in
       (forall cap m stack, length stack + length (discovers t) <= 1 + cap ->
          bloop cap (cost t + m) s0 u (g_out g u) stack = b_after cap m (run V t s) u stack) /\
       (forall m stack, loop (cost t + m) s0 u (g_out g u) stack = after V g always_false m (run V t s) u stack) /\
       (forall stack f, f < cost t -> loop f s0 u (g_out g u) stack = NoFuel)) /\
    (forall u es D t D', scan_es g u es D t D' -> forall s, R D s -> In u D -> incl es (g_out g u) ->
       R D' (run V t s) /\
       (forall cap m stack, length stack + length (discovers t) <= cap ->
          bloop cap (cost t + m) s u es stack = b_after cap m (run V t s) u stack) /\
       (forall m stack, loop (cost t + m) s u es stack = after V g always_false m (run V t s) u stack) /\
       (forall stack f, f < cost t -> loop f s u es stack = NoFuel)).
  Proof.
    apply visit_scan_ind.
    - intros u D t D' _ IH s Hu H. destruct (IH _ H) as (A & B & C); [now left | apply incl_refl |].
      split; [exact A|]. rewrite cost_visit. cbv zeta. split; [|exact C].
      intros cap m stack L. rewrite B; [reflexivity|]. cbn [discovers flat_map app length] in L. fold (discovers t) in L. lia.
    - intros u D s H Hu _. split; [now apply (d_fin _ _ _ disc)|]. rewrite cost_cons_finish. split; [|split].
      + intros cap m stack _. cbn. destruct stack as [|[? [|]]]; reflexivity.
      + intros m stack. cbn. destruct stack as [|[? [|]]]; reflexivity.
      + intros stack [|f] Hf; [reflexivity|lia].
    - intros u e es D t D' Hi _ IH s H Hu Hs.
      assert (In e (g_out g u)) as He by (apply Hs; now left). destruct (wf _ _ He) as (E1 & E2).
      destruct (IH (v_step V (ENonTree e) s)) as (A & B & B' & C).
      + apply (d_non _ _ _ disc); [assumption | now rewrite E1 | assumption].
      + assumption.
      + intros x Hx. apply Hs. now right.
      + pose proof (proj2 (d_disc _ _ _ disc D s (e_tgt e) H E2) Hi) as T.
        split; [exact A|]. rewrite cost_non. split; [|split].
        * intros cap m stack L. cbn [Nat.add d_loop]. rewrite T. now apply B.
        * intros m stack. cbn [Nat.add dfs_loop]. rewrite T. apply B'.
        * intros stack [|f] Hf; [reflexivity|]. cbn [dfs_loop]. rewrite T. apply C. lia.
    - intros u e es D t1 D1 t2 D' Hn H1 IH1 H2 IH2 s H Hu Hs.
      assert (In e (g_out g u)) as He by (apply Hs; now left). destruct (wf _ _ He) as (E1 & E2).
      destruct (IH1 (v_step V (ETreeStart e) s) E2) as (A1 & B1 & B1' & C1).
      { apply (d_tree _ _ _ disc); [assumption | now rewrite E1 | assumption | assumption]. }
      destruct (IH2 (v_step V (ETreeFinish e) (run V t1 (v_step V (ETreeStart e) s)))) as (A2 & B2 & B2' & C2).
      { apply (d_tfin _ _ _ disc); [assumption | |].
        - rewrite E1. now apply (visit_incl _ _ _ _ _ H1).
        - apply (visit_in _ _ _ _ _ _ H1). left. now apply (visit_discovers_root _ _ _ _ _ H1). }
      { now apply (visit_incl _ _ _ _ _ H1). }
      { intros x Hx. apply Hs. now right. }
      assert (run V (ETreeStart e :: t1 ++ ETreeFinish e :: t2) s =
        run V t2 (v_step V (ETreeFinish e) (run V t1 (v_step V (ETreeStart e) s)))) as ->.
      { change (run V (t1 ++ ETreeFinish e :: t2) (v_step V (ETreeStart e) s) = run V t2 (v_step V (ETreeFinish e) (run V t1 (v_step V (ETreeStart e) s)))).
        now rewrite run_app. }
      assert (v_disc V s (e_tgt e) = false) as T.
      { apply not_true_iff_false. now rewrite (d_disc _ _ _ disc D s (e_tgt e) H E2). }
      rewrite discovers_tree. assert (1 <= length (discovers t1)) as L1 by (inversion H1; subst; cbn; lia).
      split; [exact A2|]. rewrite cost_tree. split; [|split].
      + intros cap m stack L. rewrite app_length in L.
        replace (1 + cost t1 + cost t2 + m) with (Datatypes.S (cost t1 + (cost t2 + m))) by lia.
        cbn [d_loop]. rewrite T. unfold room. rewrite (proj2 (Nat.ltb_lt _ _)) by lia. cbn [bind always_false].
        rewrite B1 by (cbn [length]; lia). cbn [b_after]. apply B2. lia.
      + intros m stack. replace (1 + cost t1 + cost t2 + m) with (Datatypes.S (cost t1 + (cost t2 + m))) by lia.
        cbn [dfs_loop]. rewrite T. cbn [always_false]. rewrite B1'. cbn [after]. apply B2'.
      + intros stack [|f] Hf; [reflexivity|]. cbn [dfs_loop]. rewrite T. cbn [always_false].
        destruct (Nat.lt_ge_cases f (cost t1)) as [L|L]; [now apply C1|].
        replace f with (cost t1 + (f - cost t1)) by lia. rewrite B1'. cbn [after]. apply C2. lia.
  Qed.

  Lemma dfs_visit_steps u D t D' s : visit g u D t D' -> u < g_n g -> ~ In u D -> R D s ->
    R D' (run V (ESearchStart u :: t ++ [ESearchFinish (Some u)]) s) /\
    (forall f, cost t <= f -> dfs_visit V g always_false f s u = Ok (run V (ESearchStart u :: t ++ [ESearchFinish (Some u)]) s)) /\
    (forall f, f < cost t -> dfs_visit V g always_false f s u = NoFuel).
  Proof.
    intros H Hu Hn HR.
    destruct (proj1 visit_scan_steps _ _ _ _ H (v_step V (ESearchStart u) s) Hu) as (A & _ & B & C).
    { now apply (d_root _ _ _ disc). }
    change (run V (ESearchStart u :: t ++ [ESearchFinish (Some u)]) s) with
      (run V (t ++ [ESearchFinish (Some u)]) (v_step V (ESearchStart u) s)).
    rewrite run_app. split; [|split].
    - apply (d_sfin _ _ _ disc); [assumption|]. apply (visit_in _ _ _ _ _ _ H). left. now apply (visit_discovers_root _ _ _ _ _ H).
    - intros f Hf. unfold dfs_visit. cbv zeta. cbn [always_false]. replace f with (cost t + (f - cost t)) by lia.
      rewrite B. reflexivity.
    - intros f Hf. unfold dfs_visit. cbv zeta. cbn [always_false]. now rewrite C.
  Qed.
  Lemma bounded_dfs_steps cap u t D' s : visit g u [] t D' -> u < g_n g -> R [] (init_all V g s) -> length (discovers t) <= 1 + cap ->
    forall f, cost t <= f -> bounded_dfs V g always_false cap f s u =
      Ok (run V (ESearchStart u :: t ++ [ESearchFinish (Some u)]) (init_all V g s)).
  Proof.
    intros H Hu HR L f Hf.
    destruct (proj1 visit_scan_steps _ _ _ _ H (v_step V (ESearchStart u) (init_all V g s)) Hu) as (A & B & _).
    { apply (d_root _ _ _ disc); auto. }
    change (run V (ESearchStart u :: t ++ [ESearchFinish (Some u)]) (init_all V g s)) with
      (run V (t ++ [ESearchFinish (Some u)]) (v_step V (ESearchStart u) (init_all V g s))).
    rewrite run_app. unfold bounded_dfs. cbv zeta. cbn [always_false]. replace f with (cost t + (f - cost t)) by lia.
    rewrite B by (cbn [length]; lia). reflexivity.
  Qed.
  Lemma dfs_roots_steps rs D t D' s n : forest g rs D t D' -> (forall r, In r rs -> r < g_n g) -> R D s -> cost t <= n ->
    R D' (run V t s) /\ forall f, n <= f -> dfs_roots V g always_false f s rs = Ok (run V t s).
  Proof.
    intro F. revert s. induction F as [D|r rs D t D' Hi F IH|r rs D t1 D1 t2 D' Hn H1 H2 IH]; intros s Hr HR Hc.
    - split; [assumption|]. reflexivity.
    - destruct (IH s) as (A & B); [intros; apply Hr; now right | assumption | assumption |].
      split; [assumption|]. intros f Hf. cbn [dfs_roots].
      rewrite (proj2 (d_disc _ _ _ disc D s r HR (Hr r (or_introl eq_refl))) Hi). now apply B.
    - assert (cost (ESearchStart r :: t1 ++ ESearchFinish (Some r) :: t2) = cost t1 + cost t2) as Ec.
      { unfold cost. cbn [finishes examined flat_map app].
        fold (finishes (t1 ++ ESearchFinish (Some r) :: t2)) (examined (t1 ++ ESearchFinish (Some r) :: t2)).
        rewrite finishes_app, examined_app, !app_length.
        change (finishes (ESearchFinish (Some r) :: t2)) with (finishes t2). change (examined (ESearchFinish (Some r) :: t2)) with (examined t2). lia. }
      rewrite Ec in Hc.
      destruct (dfs_visit_steps r D t1 D1 s H1 (Hr r (or_introl eq_refl)) Hn HR) as (A1 & B1 & _).
      destruct (IH (run V (ESearchStart r :: t1 ++ [ESearchFinish (Some r)]) s)) as (A & B); [intros; apply Hr; now right | assumption | lia |].
      assert (run V (ESearchStart r :: t1 ++ ESearchFinish (Some r) :: t2) s =
        run V t2 (run V (ESearchStart r :: t1 ++ [ESearchFinish (Some r)]) s)) as ->.
      { rewrite <- run_app. cbn [app]. now rewrite <- app_assoc. }
      split; [assumption|]. intros f Hf. cbn [dfs_roots].
      assert (v_disc V s r = false) as ->.
      { apply not_true_iff_false. now rewrite (d_disc _ _ _ disc D s r HR (Hr r (or_introl eq_refl))). }
      rewrite B1 by lia. cbn [bind]. now apply B.
  Qed.

  (** The number of nested calls of the recursive search. *)
  Lemma walk_cons u e n v : In e (g_out g u) -> walk g (e_tgt e) n v -> walk g u (Datatypes.S n) v.
  Proof.
    intros He. induction 1 as [|n x w W IH Ha].
    - econstructor; [constructor|now exists e].
    - econstructor; eauto.
  Qed.
  Lemma visit_scan_depth :
    (forall u D t D', visit g u D t D' -> forall s, u < g_n g ->
       R (u :: D) (v_step V (EStart u) (v_step V (EDiscover u) s)) ->
       R D' (run V t s) /\
       exists k, 1 <= k <= length (discovers t) /\ (forall v, In v (discovers t) -> exists n, n < k /\ walk g u n v) /\
         (forall f, k <= f -> rec f u s = Ok (run V t s, false)) /\
         (forall f, f < k -> rec f u s = NoFuel)) /\
    (forall u es D t D', scan_es g u es D t D' -> forall s, R D s -> In u D -> incl es (g_out g u) ->
       R D' (run V t s) /\
       exists k, k <= length (discovers t) /\
         (forall v, In v (discovers t) -> exists n, n < k /\ walk g u (Datatypes.S n) v) /\
         (forall f, k <= f -> scan V (rec f) u es s = Ok (run V t s, false)) /\
         (forall f, f < k -> scan V (rec f) u es s = NoFuel)).
  Proof.
    apply visit_scan_ind.
    - intros u D t D' _ IH s Hu H. destruct (IH _ H) as (A & k & L & W & B & C); [now left | apply incl_refl |].
      split; [exact A|]. exists (1 + k). split; [|split; [|split]].
      + cbn. fold (discovers t). lia.
      + intros v [<-|Hv]; [exists 0; split; [lia|constructor]|]. destruct (W v Hv) as (n & Hn & Ww). exists (Datatypes.S n). split; [lia|exact Ww].
      + intros [|f] Hf; [lia|]. cbn [recurse always_false]. apply B. lia.
      + intros [|f] Hf; [reflexivity|]. cbn [recurse always_false]. apply C. lia.
    - intros u D s H Hu _. split; [now apply (d_fin _ _ _ disc)|]. exists 0. split; [cbn; lia|].
      split; [easy|]. split; [reflexivity|lia].
    - intros u e es D t D' Hi _ IH s H Hu Hs.
      assert (In e (g_out g u)) as He by (apply Hs; now left). destruct (wf _ _ He) as (E1 & E2).
      destruct (IH (v_step V (ENonTree e) s)) as (A & k & L & W & B & C).
      + apply (d_non _ _ _ disc); [assumption | now rewrite E1 | assumption].
      + assumption.
      + intros x Hx. apply Hs. now right.
      + pose proof (proj2 (d_disc _ _ _ disc D s (e_tgt e) H E2) Hi) as T.
        split; [exact A|]. exists k. split; [exact L|]. split; [exact W|]. cbn [scan]. rewrite T. now split.
    - intros u e es D t1 D1 t2 D' Hn H1 IH1 H2 IH2 s H Hu Hs.
      assert (In e (g_out g u)) as He by (apply Hs; now left). destruct (wf _ _ He) as (E1 & E2).
      destruct (IH1 (v_step V (ETreeStart e) s) E2) as (A1 & k1 & L1 & W1 & B1 & C1).
      { apply (d_tree _ _ _ disc); [assumption | now rewrite E1 | assumption | assumption]. }
      destruct (IH2 (v_step V (ETreeFinish e) (run V t1 (v_step V (ETreeStart e) s)))) as (A2 & k2 & L2 & W2 & B2 & C2).
      { apply (d_tfin _ _ _ disc); [assumption | |].
        - rewrite E1. now apply (visit_incl _ _ _ _ _ H1).
        - apply (visit_in _ _ _ _ _ _ H1). left. now apply (visit_discovers_root _ _ _ _ _ H1). }
      { now apply (visit_incl _ _ _ _ _ H1). }
      { intros x Hx. apply Hs. now right. }
      assert (run V (ETreeStart e :: t1 ++ ETreeFinish e :: t2) s =
        run V t2 (v_step V (ETreeFinish e) (run V t1 (v_step V (ETreeStart e) s)))) as ->.
      { change (run V (t1 ++ ETreeFinish e :: t2) (v_step V (ETreeStart e) s) = run V t2 (v_step V (ETreeFinish e) (run V t1 (v_step V (ETreeStart e) s)))).
        now rewrite run_app. }
      assert (v_disc V s (e_tgt e) = false) as T.
      { apply not_true_iff_false. now rewrite (d_disc _ _ _ disc D s (e_tgt e) H E2). }
      split; [exact A2|]. exists (Nat.max k1 k2). rewrite discovers_tree, app_length. split; [lia|]. split; [|split].
      + intros v Hv. apply in_app_iff in Hv. destruct Hv as [Hv|Hv].
        * destruct (W1 v Hv) as (n & ? & W). exists n. split; [lia|]. now apply (walk_cons u e).
        * destruct (W2 v Hv) as (n & ? & W). exists n. split; [lia|exact W].
      + intros f Hf. cbn [scan]. rewrite T, B1 by lia. cbn [bind]. apply B2. lia.
      + intros f Hf. cbn [scan]. rewrite T. destruct (Nat.lt_ge_cases f k1) as [L|L]; [now rewrite C1|].
        rewrite B1 by lia. cbn [bind]. apply C2. lia.
  Qed.
End Dfs.
