(** Searches with a terminator take no more steps and no more memory than without. *)
From Coq Require Import List Bool PeanoNat Lia.
From Verif Require Import Outcome GraphModel BoundedModel.
Import ListNotations.

Local Arguments b_discover : simpl never.
Local Arguments bfs_discover : simpl never.
Section Term.
  Context {S : Type}.
  Variable V : visitor S.
  Variable g : graph.
  Variable term : nat -> bool.
  Variable cap : nat.

  Lemma discover_term s q u z : b_discover V always_false cap s q u = Ok z ->
    exists s1 q1, z = inl (s1, q1) /\
      exists z', b_discover V term cap s q u = Ok z' /\ bfs_discover V term s q u = z' /\ (z' = inl (s1, q1) \/ exists s', z' = inr s').
  Proof.
    unfold b_discover, bfs_discover, room, always_false. destruct (length q <? cap); [|discriminate]. cbn. intros [= <-].
    do 2 eexists. split; [reflexivity|]. destruct (term u); eexists; (split; [reflexivity|]); split; eauto 9.
  Qed.
  Lemma sources_term src : forall s q z, b_sources V always_false cap s q src = Ok z ->
    exists s1 q1, z = inl (s1, q1) /\
      exists z', b_sources V term cap s q src = Ok z' /\ bfs_sources V term s q src = z' /\ (z' = inl (s1, q1) \/ exists s', z' = inr s').
  Proof.
    induction src as [|u src IH]; intros s q z; cbn.
    - intros [= <-]. do 2 eexists. split; [reflexivity|]. eauto 9.
    - match goal with |- context [b_discover V always_false cap ?a ?b ?c] => destruct (b_discover V always_false cap a b c) as [z1| | | |] eqn:E end; try discriminate. cbn.
      destruct (discover_term _ _ _ _ E) as (s1 & q1 & -> & z' & -> & -> & [->|[s' ->]]); intros H; [exact (IH _ _ _ H)|].
      destruct (IH _ _ _ H) as (s2 & q2 & -> & _). cbn. do 2 eexists. split; [reflexivity|]. eauto 9.
  Qed.
  Lemma edges_term es : forall s q z, b_edges V always_false cap s q es = Ok z ->
    exists s1 q1, z = inl (s1, q1) /\
      exists z', b_edges V term cap s q es = Ok z' /\ bfs_edges V term s q es = z' /\ (z' = inl (s1, q1) \/ exists s', z' = inr s').
  Proof.
    induction es as [|e es IH]; intros s q z; cbn.
    - intros [= <-]. do 2 eexists. split; [reflexivity|]. eauto 9.
    - destruct (v_disc V s (e_tgt e)); [apply IH|].
      match goal with |- context [b_discover V always_false cap ?a ?b ?c] => destruct (b_discover V always_false cap a b c) as [z1| | | |] eqn:E end; try discriminate. cbn.
      destruct (discover_term _ _ _ _ E) as (s1 & q1 & -> & z' & -> & -> & [->|[s' ->]]); intros H; [exact (IH _ _ _ H)|].
      destruct (IH _ _ _ H) as (s2 & q2 & -> & _). cbn. do 2 eexists. split; [reflexivity|]. eauto 9.
  Qed.
  Lemma loop_term fuel : forall s q r, b_loop V g always_false cap fuel s q = Ok r ->
    exists r', forall f, fuel <= f -> b_loop V g term cap f s q = Ok r' /\ bfs_loop V g term f s q = Ok r'.
  Proof.
    induction fuel as [|fuel IH]; intros s [|u q] r; cbn; try discriminate.
    - intros _. eexists. intros [|f] _; cbn; eauto 9.
    - intros _. eexists. intros [|f] _; cbn; eauto 9.
    - match goal with |- context [b_edges V always_false cap ?a ?b ?c] => destruct (b_edges V always_false cap a b c) as [z| | | |] eqn:E end; try discriminate. cbn.
      destruct (edges_term _ _ _ _ E) as (s1 & q1 & -> & z' & Z1 & Z2 & [->|[s' ->]]); intros H.
      + destruct (IH _ _ _ H) as [r' R]. exists r'. intros [|f] Hf; [lia|]. cbn. rewrite Z1, Z2. cbn. apply R. lia.
      + exists s'. intros [|f] Hf; [lia|]. cbn. rewrite Z1, Z2. cbn. auto.
  Qed.
  Lemma bfs_with_term fuel s src r : bounded_bfs V g always_false cap fuel s src = Ok r ->
    exists r', forall f, fuel <= f -> bounded_bfs V g term cap f s src = Ok r' /\ bfs V g term f s src = Ok r'.
  Proof.
    unfold bounded_bfs, bfs. match goal with |- context [b_sources V always_false cap ?a ?b ?c] => destruct (b_sources V always_false cap a b c) as [z| | | |] eqn:E end; try discriminate. cbn.
    destruct (sources_term _ _ _ _ E) as (s1 & q1 & -> & z' & -> & -> & [->|[s' ->]]); intros H; cbn; [exact (loop_term _ _ _ _ H)|eauto].
  Qed.
  Lemma d_loop_term fuel : forall s u it stack r, d_loop V g always_false cap fuel s u it stack = Ok r ->
    exists r', forall f, fuel <= f -> d_loop V g term cap f s u it stack = Ok r' /\ dfs_loop V g term f s u it stack = Ok r'.
  Proof.
    induction fuel as [|fuel IH]; intros s u it stack r; cbn; try discriminate. destruct it as [|e it].
    - destruct stack as [|[v [|e it]] stack]; try discriminate.
      + intros _. eexists. intros [|f] Hf; [lia|]. cbn. eauto 9.
      + intros H. destruct (IH _ _ _ _ _ H) as [r' R]. exists r'. intros [|f] Hf; [lia|]. cbn. apply R. lia.
    - destruct (v_disc V s (e_tgt e)) eqn:D.
      + intros H. destruct (IH _ _ _ _ _ H) as [r' R]. exists r'. intros [|f] Hf; [lia|]. cbn. rewrite D. apply R. lia.
      + unfold room. destruct (length stack <? cap) eqn:C; [|discriminate]. cbn. intros H.
        destruct (IH _ _ _ _ _ H) as [r' R]. destruct (term (e_tgt e)) eqn:T.
        * eexists. intros [|f] Hf; [lia|]. cbn. rewrite D. unfold room. rewrite C. cbn. rewrite T. eauto 9.
        * exists r'. intros [|f] Hf; [lia|]. cbn. rewrite D. unfold room. rewrite C. cbn. rewrite T. apply R. lia.
  Qed.
  Lemma dfs_with_term fuel s u r : bounded_dfs V g always_false cap fuel s u = Ok r ->
    exists r', forall f, fuel <= f -> bounded_dfs V g term cap f s u = Ok r' /\ dfs_from V g term f s u = Ok r'.
  Proof.
    unfold bounded_dfs, dfs_from, dfs_visit. cbv zeta. change (always_false u) with false. cbv iota.
    match goal with |- context [d_loop V g always_false cap fuel ?a ?b ?c ?d] => destruct (d_loop V g always_false cap fuel a b c d) as [p| | | |] eqn:E end; try discriminate. intros _.
    destruct (term u) eqn:T; [cbn; eauto|]. destruct (d_loop_term _ _ _ _ _ _ E) as [[s' v] R].
    eexists. intros f Hf. destruct (R f Hf) as [-> ->]. cbn. eauto 9.
  Qed.
End Term.
