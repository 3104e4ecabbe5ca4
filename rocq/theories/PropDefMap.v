(** Default maps of vertices and edges: property C126. *)
From Coq Require Import List Bool PeanoNat Lia.
From Verif Require Import Outcome AdjModel AdjProofs MapModel DefMapModel.
From Verif Require Import BuiltModel PropBuilt.
Import ListNotations.

(** ** Specification *)

(** What was last written to a key that is the same as the one read *)
Inductive latest {K T} (same : K -> Prop) (dflt : T) : list (K * T) -> T -> Prop :=
| latest_none : latest same dflt [] dflt
| latest_hit ws k x : same k -> latest same dflt (ws ++ [(k, x)]) x
| latest_miss ws k x y : ~ same k -> latest same dflt ws y -> latest same dflt (ws ++ [(k, x)]) y.

(** The accepted requests that leave a vertex, in order *)
Definition out_at (und : bool) (A : list (nat * nat * nat)) (u : nat) : list nat :=
  filter (fun i => match nth_error A i with Some (a, b, _) => (a =? u) || und && (b =? u) | None => false end)
    (seq 0 (length A)).
(** The request an edge stands for *)
Definition stands_for (c : config) (A : list (nat * nat * nat)) (e : edge) (i : nat) : Prop :=
  (exists p, nth_error A i = Some (e_source e, e_target e, p) \/
     c_dir c = Undirected /\ nth_error A i = Some (e_target e, e_source e, p)) /\
  match c_sel c with
  | SelNone => nth_error (out_at (is_undirected c) A (e_source e)) (e_bundle e) = Some i
  | _ => e_bundle e = i
  end.

(** An edge got from a graph: from the edges that leave a vertex, enter a vertex or are in the graph;
    the edges that enter a vertex of an undirected graph without a container of edges carry a wrong id
    (C47_in_edge_bundle_refuted). *)
Definition handle (c : config) (g : graph) (e : edge) : Prop :=
  (exists u es, u < vertex_count g /\ out_edges c g u = Ok es /\ In e es) \/
  (exists u es, u < vertex_count g /\ in_edges c g u = Ok es /\ In e es /\
     (c_dir c = Bidirectional \/ c_dir c = Undirected /\ c_sel c <> SelNone)) \/
  (exists k es, (forall f, k <= f -> edges f c g = Ok es) /\ In e es).

(** The same edge: without a container of edges the two directions of an undirected one differ. *)
Definition same_edge (c : config) (A : list (nat * nat * nat)) (e f : edge) : Prop :=
  (exists i, stands_for c A e i /\ stands_for c A f i) /\
  (c_sel c = SelNone -> c_dir c = Undirected -> e_source e = e_source f).

(** ** Edges stand for requests *)

Lemma out_at_app und A x u : out_at und (A ++ [x]) u =
  out_at und A u ++ if (rq_src x =? u) || und && (rq_tgt x =? u) then [length A] else [].
Proof.
  unfold out_at. rewrite app_length, seq_app, filter_app. cbn [length seq filter Nat.add]. f_equal.
  - apply filter_ext_in. intros i H. apply in_seq in H. now rewrite nth_error_app1 by lia.
  - rewrite nth_error_app2, Nat.sub_diag by lia. destruct x as [[a b] p]. reflexivity.
Qed.

Lemma it_out_out_at c R u : map it_idx (it_out c R u) = out_at (is_undirected c) (rev R) u.
Proof.
  induction R as [|[[a b] p] R IH]; [reflexivity|]. cbn [it_out rev].
  rewrite out_at_app, map_app, IH, rev_length. unfold rq_src, rq_tgt. cbn [fst snd]. f_equal.
  destruct (a =? u), (is_undirected c && (b =? u)); reflexivity.
Qed.

Lemma und_dir c : is_undirected c = true <-> c_dir c = Undirected.
Proof. unfold is_undirected. destruct (c_dir c); split; congruence. Qed.

Lemma oe_stands c R u e : In e (oe c R u) -> exists i, stands_for c (rev R) e i.
Proof.
  unfold oe. intro H. apply in_imap in H as (k & [[t p] i] & N & ->). cbn [Nat.add].
  exists i. split.
  - apply nth_error_In, it_out_iff in N as (a & b & N & C). cbn. exists p. rewrite <- und_dir.
    destruct C as [[-> ->]|(U & _ & -> & ->)]; auto.
  - cbn. unfold sel_none. destruct (c_sel c); try reflexivity.
    now rewrite <- it_out_out_at, nth_error_map, N.
Qed.

Lemma inverted_stands c R u e : c_dir c = Undirected -> c_sel c <> SelNone ->
  In e (map edge_inverter (oe c R u)) -> exists i, stands_for c (rev R) e i.
Proof.
  intros U S H. apply in_map_iff in H as (e' & <- & H). apply oe_stands in H as (i & (p & C) & B).
  exists i. split.
  - exists p. cbn. destruct C as [C|[_ C]]; auto.
  - cbn. destruct (c_sel c); try congruence.
Qed.

Lemma ie_stands c R u e : c_dir c = Bidirectional -> In e (map (ie_of u) (it_in c R u)) ->
  exists i, stands_for c (rev R) e i.
Proof.
  intros Bi H. apply in_map_iff in H as (x & <- & H).
  assert (Un : is_undirected c = false) by (unfold is_undirected; now rewrite Bi).
  pose proof (it_in_inv c R u x Un H) as I. unfold sel_none in I. unfold stands_for.
  cbn [ie_of e_source e_target e_bundle].
  destruct (c_sel c).
  - destruct I as [i N]. exists i. split.
    + pose proof (nth_error_In _ _ N) as M. apply it_out_iff in M as (a & b & M & C).
      exists (it_prop x). destruct C as [[-> ->]|(U & _)]; [auto|congruence].
    + rewrite <- it_out_out_at, nth_error_map, N. reflexivity.
  - exists (it_idx x). split; [|reflexivity]. exists (it_prop x). now left.
  - exists (it_idx x). split; [|reflexivity]. exists (it_prop x). now left.
  - exists (it_idx x). split; [|reflexivity]. exists (it_prop x). now left.
Qed.

Lemma handle_stored c n R e : bounded n R -> handle c (stored c n R) e -> exists i, stands_for c (rev R) e i.
Proof.
  intro B.
  assert (VC : vertex_count (stored c n R) = n) by exact (view_n c n R).
  intros [(u & es & L & E & H)|[(u & es & L & E & H & D)|(k & es & E & H)]].
  - rewrite VC in L. rewrite out_edges_stored in E by exact L. injection E as <-. eapply oe_stands; eauto.
  - rewrite VC in L. destruct D as [D|[D S]].
    + assert (Bi : is_bidirectional c = true) by (unfold is_bidirectional; now rewrite D).
      destruct (in_edges_bidirectional c n R u Bi B L) as [E' _]. rewrite E' in E. injection E as <-.
      eapply ie_stands; eauto.
    + destruct (in_edges_undirected c n R u (proj2 (und_dir c) D) L) as [E' _]. rewrite E' in E.
      injection E as <-. eapply inverted_stands; eauto.
  - destruct (c_sel c) eqn:ES.
    4: { destruct (edges_two c k n R ES) as (G1 & _ & _). rewrite (E k (le_n _)) in G1. injection G1 as ->.
         apply in_imap in H as (i & x & N & ->). cbn [Nat.add].
         exists i. unfold stands_for, two_of, normal. rewrite ES. cbn [e_bundle]. split; [|reflexivity].
         destruct x as [[a b] p]. exists p. rewrite <- und_dir.
         destruct (is_undirected c); cbn [andb rq_src rq_tgt fst snd e_source e_target]; [|now left].
         destruct (b <? a); cbn; auto. }
    all: destruct (Nat.eq_dec n 0) as [Z|Z];
      [specialize (E k (le_n _)); unfold edges in E; rewrite ES in E; unfold outs, at_id, stored, mk in E;
       rewrite Z in E; discriminate|];
      set (f := k + S (S (n + 2 * length R)));
      specialize (E f ltac:(lia));
      rewrite edges_stored in E by
        (first [congruence | lia | pose proof (weight_bound c n R ltac:(lia)); lia
               | pose proof (all_edges_bound c n R); lia]);
      injection E as <-; unfold all_edges in H;
      apply in_flat_map in H as (w & _ & H); apply filter_In in H as [H _];
      eapply oe_stands; eauto.
Qed.

Section Built.
  Context (c : config) (n0 : nat) (h : list (nat * nat * nat)) (e0 : nat -> nat).
  Context (g : AdjModel.graph) (rs : list (AdjModel.edge * bool)).
  Context (Run : AdjModel.run c (empty_graph n0) h e0 = Ok (g, rs)).
  Notation A := (accept (c_unique c) (is_undirected c) [] h).

  Lemma handle_stands e : handle c g e -> exists i, stands_for c A e i.
  Proof.
    destruct (built_stored c n0 h e0 g rs Run) as (R & -> & B & EA). rewrite <- EA. now apply handle_stored.
  Qed.

  Lemma edge_count_built : edge_count g = length A.
  Proof.
    destruct (built_stored c n0 h e0 g rs Run) as (R & -> & B & EA).
    now rewrite edge_count_stored, <- EA, rev_length.
  Qed.

  (** More requests *)
  Lemma built_more h2 e2 g2 rs2 : AdjModel.run c g h2 e2 = Ok (g2, rs2) ->
    (exists T, accept (c_unique c) (is_undirected c) [] (h ++ h2) = A ++ T) /\
    (forall e, handle c g2 e -> exists i, stands_for c (accept (c_unique c) (is_undirected c) [] (h ++ h2)) e i).
  Proof.
    destruct (built_stored c n0 h e0 g rs Run) as (R & -> & B & EA). intro R2.
    destruct (run_stored c h2 (needed n0 h) R e2 B) as (R' & rs' & E & B' & (T & ET) & EA' & _).
    rewrite E in R2. injection R2 as <- _.
    assert (X : accept (c_unique c) (is_undirected c) [] (h ++ h2) = rev R').
    { rewrite EA', EA. clear. generalize (@nil request). induction h as [|x l IH]; intro acc; [reflexivity|].
      cbn. destruct (_ && _); apply IH. }
    rewrite X. split.
    - exists (rev T). now rewrite ET, rev_app_distr, EA.
    - intros e. now apply handle_stored.
  Qed.
End Built.

Lemma stands_more c A T e i : stands_for c A e i -> stands_for c (A ++ T) e i.
Proof.
  intros [(p & H) B].
  assert (X : forall x, nth_error A i = Some x -> nth_error (A ++ T) i = Some x).
  { intros x N. rewrite nth_error_app1; [exact N|]. apply nth_error_Some. congruence. }
  split; [exists p; destruct H as [H|[U H]]; auto|].
  destruct (c_sel c); auto. clear - B. revert B. generalize (e_source e) (e_bundle e). intros u k B.
  induction T as [|x T IH] using rev_ind; [now rewrite app_nil_r|].
  rewrite app_assoc, out_at_app. rewrite nth_error_app1; [exact IH|]. apply nth_error_Some. congruence.
Qed.

Lemma stands_fun c A e i j : stands_for c A e i -> stands_for c A e j -> i = j.
Proof. intros [_ H] [_ K]. destruct (c_sel c); congruence. Qed.

Lemma stands_lt c A e i : stands_for c A e i -> i < length A.
Proof. intros [(p & [H|[_ H]]) _]; apply nth_error_Some; congruence. Qed.

Lemma same_edge_iff c A e f : (exists i, stands_for c A e i) -> (exists i, stands_for c A f i) ->
  edge_eqb c e f = true <-> same_edge c A e f.
Proof.
  intros (i & Ei & Bi) (j & Fj & Bj). unfold edge_eqb, edge_id, sel_none.
  rewrite andb_true_iff, !Nat.eqb_eq.
  destruct (c_sel c) eqn:S; cbn [fst snd].
  2-4: split;
    [intros [_ Q]; split; [|intros; congruence]; exists i; split; [split; [exact Ei|now rewrite S]|];
       assert (i = j) as -> by congruence; split; [exact Fj|now rewrite S]
    |intros [(k & [_ K1] & [_ K2]) _]; rewrite S in K1, K2; split; congruence].
  split.
  - intros [Q1 Q2]. rewrite Q1, Q2, Bj in Bi. injection Bi as <-. split; [|intros; exact Q1].
    exists j. split; split; auto; rewrite S; rewrite ?Q1, ?Q2; exact Bj.
  - intros [(k & [(p & K1) B1] & [(q & K2) B2]) D]. rewrite S in B1, B2.
    assert (Q : e_source e = e_source f).
    { destruct (c_dir c) eqn:DD; [|now apply D|];
        destruct K1 as [K1|[? _]], K2 as [K2|[? _]]; congruence. }
    split; [exact Q|]. rewrite <- Q in B2.
    apply (proj1 (NoDup_nth_error (out_at (is_undirected c) A (e_source e)))); [|apply nth_error_Some|]; try congruence.
    unfold out_at. apply NoDup_filter, seq_NoDup.
Qed.

(** ** Maps *)

Lemma set_nth_get {T} (l : list T) i j x : i < length l ->
  nth_error (set_nth i x l) j = if i =? j then Some x else nth_error l j.
Proof.
  revert i j. induction l as [|y l IH]; intros i j L; [cbn in L; lia|].
  destruct i, j; cbn; try reflexivity. apply IH. cbn in L. lia.
Qed.

Lemma set_nth_len {T} (l : list T) i x : length (set_nth i x l) = length l.
Proof. revert i. induction l; intros [|i]; cbn; auto. Qed.

Section Assoc.
  Context {K T : Type} (keq : K -> K -> bool) (key : K -> nat * nat).
  Context (Keq : forall a b, keq a b = true <-> key a = key b).

  Lemma assign_find (l : list (K * T)) k x j :
    a_find keq (a_assign keq l k x) j = if keq k j then Some x else a_find keq l j.
  Proof.
    induction l as [|[k' y] l IH]; cbn; [reflexivity|].
    destruct (keq k' k) eqn:E; cbn.
    - apply Keq in E. destruct (keq k' j) eqn:F, (keq k j) eqn:G; auto;
        try apply Keq in F; try apply Keq in G.
      + exfalso. assert (keq k j = true) by (apply Keq; congruence). congruence.
      + exfalso. assert (keq k' j = true) by (apply Keq; congruence). congruence.
    - rewrite IH. destruct (keq k' j) eqn:F; [|reflexivity].
      destruct (keq k j) eqn:G; [|reflexivity]. apply Keq in F, G.
      assert (keq k' k = true) by (apply Keq; congruence). congruence.
  Qed.
End Assoc.

Lemma puts_app {K T} (put : dmap (T:=T) K -> K -> T -> outcome (dmap K)) ws : forall m ws',
  dm_puts put m (ws ++ ws') = do m <- dm_puts put m ws; dm_puts put m ws'.
Proof.
  induction ws as [|[k x] ws IH]; intros m ws'; [reflexivity|]. cbn. destruct (put m k x); cbn; auto.
Qed.

Lemma puts_latest {K T} (dflt : T) (idx : K -> nat) (keq : K -> K -> bool) (key : K -> nat * nat)
    (Keq : forall a b, keq a b = true <-> key a = key b) (n : nat) (ok : K -> Prop) (m : dmap (T:=T) K) :
  (m = DVec (repeat dflt n) /\ (forall k, ok k -> idx k < n) /\
     (forall a b, ok a -> ok b -> idx a = idx b <-> key a = key b) \/ m = DMap []) ->
  forall ws, Forall ok (map fst ws) ->
  exists m', dm_puts (dm_put idx keq) m ws = Ok m' /\
    forall k, ok k -> exists y, dm_get dflt idx keq m' k = Ok y /\ latest (fun j => keq j k = true) dflt ws y.
Proof.
  intro M. induction ws as [|[j x] ws IH] using rev_ind; intro F.
  - exists m. split; [reflexivity|]. intros k O. exists dflt. split; [|constructor].
    destruct M as [(-> & L & _)| ->]; [|reflexivity]. unfold dm_get, at_id. rewrite nth_error_repeat; auto.
  - rewrite map_app, Forall_app in F. destruct F as [F Fj]. inversion Fj as [|? ? Oj _]; subst. cbn in Oj.
    destruct (IH F) as (m1 & E & G). rewrite puts_app, E. cbn [bind dm_puts].
    destruct m1 as [l|l].
    + assert (Q : (forall k, ok k -> idx k < n) /\ (forall a b, ok a -> ok b -> idx a = idx b <-> key a = key b)).
      { destruct M as [(_ & L & Q)| ->]; [tauto|]. exfalso. clear - E.
        assert (X : forall ws l l', dm_puts (dm_put idx keq) (DMap l) ws <> Ok (DVec l') :> outcome (dmap (T:=T) K)).
        { induction ws0 as [|[k x] ws0 IH]; intros l0 l'; cbn; [congruence|apply IH]. }
        exact (X ws [] l E). }
      destruct Q as [_ Q]. destruct (G j Oj) as (y0 & G0 & _). cbn in G0 |- *. rewrite G0. cbn [bind].
      eexists. split; [reflexivity|]. intros k O. destruct (G k O) as (y & Gk & La).
      assert (Lj : idx j < length l).
      { apply nth_error_Some. unfold at_id in G0. destruct (nth_error l (idx j)); congruence. }
      cbn. unfold at_id in *. cbn in Gk. rewrite set_nth_get by exact Lj. unfold at_id in Gk.
      destruct (Nat.eqb_spec (idx j) (idx k)) as [D|D].
      * exists x. split; [reflexivity|]. apply latest_hit. apply Keq. now apply Q.
      * exists y. split; [exact Gk|]. apply latest_miss; [|exact La]. intro X. apply D, Q; auto. now apply Keq.
    + cbn. eexists. split; [reflexivity|]. intros k O. destruct (G k O) as (y & Gk & La). cbn in Gk. cbn.
      unfold pac_get, pac_put in *. rewrite (assign_find keq key Keq).
      destruct (keq j k) eqn:D.
      * exists x. split; [reflexivity|]. now apply latest_hit.
      * exists y. split; [exact Gk|]. apply latest_miss; [congruence|exact La].
Qed.

Lemma latest_ext {K T} (P Q : K -> Prop) (dflt : T) ws y : (forall k, In k (map fst ws) -> P k <-> Q k) ->
  latest P dflt ws y -> latest Q dflt ws y.
Proof.
  intros H L. induction L as [|ws k x S|ws k x y S L IH].
  - constructor.
  - apply latest_hit. apply H; [|exact S]. rewrite map_app. apply in_or_app. right. now left.
  - apply latest_miss.
    + rewrite <- H; [exact S|]. rewrite map_app. apply in_or_app. right. now left.
    + apply IH. intros j J. apply H. rewrite map_app. apply in_or_app. now left.
Qed.

Lemma edge_eqb_key c a b : edge_eqb c a b = true <-> edge_id c a = edge_id c b.
Proof.
  unfold edge_eqb. rewrite andb_true_iff, !Nat.eqb_eq.
  destruct (edge_id c a), (edge_id c b); cbn. split; [intros [-> ->]; reflexivity|intro H; now injection H].
Qed.

(** ** Theorems *)

(** Reading the map of an edge gives what was last written to the same edge, however both were got. *)
Theorem C126_edge_map {T} (dflt : T) ra c n0 h e0 g rs ws :
  AdjModel.run c (empty_graph n0) h e0 = Ok (g, rs) -> Forall (handle c g) (map fst ws) ->
  exists m, dm_puts (em_put c) (make_default_edge_map dflt ra c g) ws = Ok m /\
    forall f, handle c g f -> exists y, em_get dflt c m f = Ok y /\
      latest (fun e => same_edge c (accept (c_unique c) (is_undirected c) [] h) e f) dflt ws y.
Proof.
  intros Run F. set (A := accept (c_unique c) (is_undirected c) [] h).
  destruct (puts_latest dflt e_bundle (edge_eqb c) (edge_id c) (edge_eqb_key c) (edge_count g) (handle c g)
    (make_default_edge_map dflt ra c g)) with (ws := ws) as (m & E & G); [|exact F|].
  - unfold make_default_edge_map. destruct ra; cbn [andb]; [|now right].
    destruct (sel_none c) eqn:S; cbn [negb]; [now right|left]. split; [reflexivity|].
    split.
    + intros e H. rewrite (edge_count_built c n0 h e0 g rs Run).
      destruct (handle_stands c n0 h e0 g rs Run e H) as (i & St). pose proof (stands_lt _ _ _ _ St).
      destruct St as [_ St]. unfold sel_none in S. destruct (c_sel c); congruence.
    + intros a b _ _. unfold edge_id. rewrite S. split; congruence.
  - exists m. split; [exact E|]. intros f H. destruct (G f H) as (y & Gy & La). exists y. split; [exact Gy|].
    revert La. apply latest_ext. intros e He. rewrite Forall_forall in F. specialize (F e He).
    apply same_edge_iff; eapply handle_stands; eauto.
Qed.

(** The map of vertices *)
Theorem C126_vertex_map {T} (dflt : T) ra g ws :
  Forall (fun u => u < vertex_count g) (map fst ws) ->
  exists m, dm_puts vm_put (make_default_vertex_map dflt ra g) ws = Ok m /\
    forall v, v < vertex_count g -> exists y, vm_get dflt m v = Ok y /\ latest (eq v) dflt ws y.
Proof.
  intro F.
  destruct (puts_latest dflt (fun u => u) Nat.eqb (fun u => (0, u))) with (n := vertex_count g)
    (ok := fun u => u < vertex_count g) (m := make_default_vertex_map dflt ra g) (ws := ws) as (m & E & G).
  - intros a b. rewrite Nat.eqb_eq. split; congruence.
  - unfold make_default_vertex_map. destruct ra; [left|now right]. split; [reflexivity|].
    split; [auto|]. intros a b _ _. split; congruence.
  - exact F.
  - exists m. split; [exact E|]. intros v L. destruct (G v L) as (y & Gy & La). exists y. split; [exact Gy|].
    revert La. apply latest_ext. intros k _. rewrite Nat.eqb_eq. split; congruence.
Qed.

Lemma latest_missing {K T} (P : K -> Prop) (dflt : T) ws y : (forall k, In k (map fst ws) -> ~ P k) ->
  latest P dflt ws y -> y = dflt.
Proof.
  intros H L. induction L as [|ws k x S|ws k x y S L IH]; [reflexivity| |].
  - exfalso. apply (H k); [|exact S]. rewrite map_app. apply in_or_app. right. now left.
  - apply IH. intros j J. apply H. rewrite map_app. apply in_or_app. now left.
Qed.

(** The graph grows after the map was made and written to: edges from before are read as before; for
    edges added later a vector has no place and checks fail, a tree reads the default value. *)
Theorem C126_edge_map_later {T} (dflt : T) ra c n0 h h2 e0 e2 g rs g2 rs2 ws :
  AdjModel.run c (empty_graph n0) h e0 = Ok (g, rs) -> AdjModel.run c g h2 e2 = Ok (g2, rs2) ->
  Forall (handle c g) (map fst ws) ->
  let A := accept (c_unique c) (is_undirected c) [] (h ++ h2) in
  exists m, dm_puts (em_put c) (make_default_edge_map dflt ra c g) ws = Ok m /\
    forall f i, handle c g2 f -> stands_for c A f i ->
      if i <? edge_count g then
        exists y, em_get dflt c m f = Ok y /\ latest (fun e => same_edge c A e f) dflt ws y
      else if ra && negb (sel_none c) then
        em_get dflt c m f = AssertFail /\ forall x, em_put c m f x = AssertFail
      else em_get dflt c m f = Ok dflt.
Proof.
  intros Run Run2 F A.
  destruct (built_more c n0 h e0 g rs Run h2 e2 g2 rs2 Run2) as [(U & EA) HS]. fold A in EA, HS.
  assert (HG : forall e, handle c g e -> exists i, stands_for c A e i /\ i < edge_count g).
  { intros e H. destruct (handle_stands c n0 h e0 g rs Run e H) as (i & St). exists i. split.
    - rewrite EA. now apply stands_more.
    - rewrite (edge_count_built c n0 h e0 g rs Run). eapply stands_lt; eauto. }
  rewrite Forall_forall in F.
  destruct (ra && negb (sel_none c)) eqn:V.
  - destruct (puts_latest dflt e_bundle (edge_eqb c) (edge_id c) (edge_eqb_key c) (edge_count g)
      (fun e => exists i, stands_for c A e i /\ i < edge_count g)
      (make_default_edge_map dflt ra c g)) with (ws := ws) as (m & E & G).
    + unfold make_default_edge_map. rewrite V. apply andb_prop in V as [_ V]. apply negb_true_iff in V.
      left. split; [reflexivity|]. split.
      * intros e (i & [_ B] & L). unfold sel_none in V. destruct (c_sel c); congruence.
      * intros a b _ _. unfold edge_id. rewrite V. split; congruence.
    + apply Forall_forall. auto.
    + exists m. split; [exact E|]. intros f i H St. destruct (Nat.ltb_spec i (edge_count g)) as [L|L].
      * destruct (G f ltac:(eauto)) as (y & Gy & La). exists y. split; [exact Gy|].
        revert La. apply latest_ext. intros e He. apply same_edge_iff; [|eauto].
        destruct (HG e (F e He)) as (j & J & _). eauto.
      * assert (exists l, m = DVec l /\ length l = edge_count g) as (l & -> & Ll).
        { unfold make_default_edge_map in E. rewrite V in E. clear - E.
          assert (X : forall (ws : list (edge * T)) (l : list T) m, length l = edge_count g -> dm_puts (em_put c) (DVec l) ws = Ok m ->
            exists l', m = DVec l' /\ length l' = edge_count g :> nat).
          { clear. induction ws as [|[k x] ws IH]; intros l m Ll E; cbn in E.
            - injection E as <-. eauto.
            - destruct (at_id l (e_bundle k)); try discriminate. cbn in E. apply IH in E; [exact E|].
              now rewrite set_nth_len. }
          eapply X; [|exact E]. apply repeat_length. }
        assert (N : nth_error l (e_bundle f) = None).
        { apply nth_error_None. apply andb_prop in V as [_ V]. destruct St as [_ B]. unfold sel_none in V.
          destruct (c_sel c); try discriminate; lia. }
        cbn. unfold at_id. rewrite N. auto.
  - destruct (puts_latest dflt e_bundle (edge_eqb c) (edge_id c) (edge_eqb_key c) (edge_count g)
      (fun e => exists i, stands_for c A e i)
      (make_default_edge_map dflt ra c g)) with (ws := ws) as (m & E & G).
    + right. unfold make_default_edge_map. now rewrite V.
    + apply Forall_forall. intros e He. destruct (HG e (F e He)) as (i & J & _). eauto.
    + exists m. split; [exact E|]. intros f i H St. destruct (G f ltac:(eauto)) as (y & Gy & La).
      assert (LA : latest (fun e => same_edge c A e f) dflt ws y).
      { revert La. apply latest_ext. intros e He. apply same_edge_iff; [|eauto].
        destruct (HG e (F e He)) as (j & J & _). eauto. }
      destruct (Nat.ltb_spec i (edge_count g)) as [L|L]; [eauto|].
      apply latest_missing in LA; [subst y; exact Gy|].
      intros e He [(j & J1 & J2) _]. destruct (HG e (F e He)) as (k & K & Lk).
      pose proof (stands_fun _ _ _ _ _ J1 K). pose proof (stands_fun _ _ _ _ _ J2 St). lia.
Qed.

(** Vertices added after the map was made *)
Theorem C126_vertex_map_later {T} (dflt : T) ra g ws :
  Forall (fun u => u < vertex_count g) (map fst ws) ->
  exists m, dm_puts vm_put (make_default_vertex_map dflt ra g) ws = Ok m /\
    forall v, vertex_count g <= v ->
      if ra then vm_get dflt m v = AssertFail /\ forall x, vm_put m v x = AssertFail
      else vm_get dflt m v = Ok dflt.
Proof.
  intro F.
  assert (Keq : forall a b : nat, (a =? b) = true <-> (0, a) = (0, b))
    by (intros a b; rewrite Nat.eqb_eq; split; congruence).
  destruct ra.
  - destruct (C126_vertex_map dflt true g ws F) as (m & E & _). exists m. split; [exact E|]. intros v L.
    assert (exists l, m = DVec l /\ length l = vertex_count g) as (l & -> & Ll).
    { cbn in E. clear - E.
      assert (X : forall (ws : list (nat * T)) (l : list T) m, length l = vertex_count g -> dm_puts vm_put (DVec l) ws = Ok m ->
        exists l', m = DVec l' /\ length l' = vertex_count g :> nat).
      { clear. induction ws as [|[k x] ws IH]; intros l m Ll E; cbn in E.
        - injection E as <-. eauto.
        - destruct (at_id l k); try discriminate. cbn in E. apply IH in E; [exact E|]. now rewrite set_nth_len. }
      eapply X; [|exact E]. apply repeat_length. }
    assert (N : nth_error l v = None) by (apply nth_error_None; lia).
    cbn. unfold at_id. rewrite N. auto.
  - destruct (puts_latest dflt (fun u => u) Nat.eqb (fun u => (0, u)) Keq 0 (fun _ => True) (DMap []))
      with (ws := ws) as (m & E & G); [now right|now apply Forall_forall|].
    exists m. split; [exact E|]. intros v L. destruct (G v I) as (y & Gy & La).
    unfold vm_get. rewrite Gy. f_equal. apply (latest_missing (fun j => (j =? v) = true) dflt ws y); [|exact La].
    intros k Hk. rewrite Forall_forall in F. specialize (F k Hk). rewrite Nat.eqb_eq. lia.
Qed.

(** Without a container of edges the value of an undirected edge depends on the end it is reached from. *)
Theorem C126_directions_refuted :
  exists c g rs e f m,
    AdjModel.run c (empty_graph 0) [(0, 1, 5)] (fun _ => 0) = Ok (g, rs) /\
    out_edges c g 0 = Ok [e] /\ out_edges c g 1 = Ok [f] /\
    em_put c (make_default_edge_map 0 true c g) e 7 = Ok m /\
    em_get 0 c m e = Ok 7 /\ em_get 0 c m f = Ok 0.
Proof.
  exists {| c_dir := Undirected; c_unique := false; c_sel := SelNone |}. do 5 eexists.
  split; [vm_compute; reflexivity|]. split; [vm_compute; reflexivity|]. split; [vm_compute; reflexivity|].
  split; [vm_compute; reflexivity|]. split; vm_compute; reflexivity.
Qed.

(** ** Cases: the same undirected edge reached from both ends, a parallel one, one added later *)
Example C126_case :
  let c := {| c_dir := Undirected; c_unique := false; c_sel := SelOne |} in
  match AdjModel.run c (empty_graph 0) [(0, 1, 5); (1, 0, 6)] (fun _ => 0) with
  | Ok (g, _) =>
      match AdjModel.run c g [(1, 2, 7)] (fun _ => 0), out_edges c g 0, out_edges c g 1 with
      | Ok (g2, _), Ok [a; b], Ok [x; y] =>
          let m := dm_puts (em_put c) (make_default_edge_map 9 true c g) [(a, 1); (x, 2)] in
          match m, out_edges c g2 2 with
          | Ok m, Ok [z] =>
              (em_get 9 c m a, em_get 9 c m b, em_get 9 c m x, em_get 9 c m y, em_get 9 c m z) =
              (Ok 2, Ok 9, Ok 2, Ok 9, AssertFail)
          | _, _ => False
          end
      | _, _, _ => False
      end
  | _ => False
  end.
Proof. vm_compute. reflexivity. Qed.

Print Assumptions C126_edge_map.
Print Assumptions C126_vertex_map.
Print Assumptions C126_edge_map_later.
Print Assumptions C126_vertex_map_later.
Print Assumptions C126_directions_refuted.
