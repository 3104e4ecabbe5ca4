(** Proofs about adding edges that an exception interrupts. *)
From Coq Require Import ZArith List Bool Arith Lia Permutation.
From Verif Require Import Outcome ListLemmas ExcModel AdjModel.
From Verif Require AdjProofs.
Import ListNotations.

Lemma eadd_done : forall c e0 g u v p, eadd c e0 [] g u v p = omap (fun x => (fst x, [], Some (snd x))) (try_add_edge c e0 g u v p).
Proof.
  intros. unfold eadd, try_add_edge, try_add_edge_ec, try_add_edge_none. cbn [throws next tl]. rewrite andb_false_r.
  replace (if vertex_count g <=? Nat.max u v then ([] : schedule) else []) with ([] : schedule) by (destruct (vertex_count g <=? Nat.max u v); reflexivity).
  cbn [throws next tl]. destruct (sel_none c); cbn [negb andb].
  - destruct (outs (reserve_vertices g u v) u) as [ue| | | |]; cbn; try reflexivity.
    destruct (id_emplace c ue v p) as [ue1 [oe ok]]. destruct ok; cbn [negb]; [|reflexivity].
    destruct (set_outs (reserve_vertices g u v) u ue1) as [g1| | | |]; cbn [bind omap]; try reflexivity.
    destruct (el_add_edge c (g_edges g1) u v 0) as [el e]. cbn [throws next tl fst]. rewrite !andb_false_r.
    set (g2 := {| g_vertices := g_vertices g1; g_edges := el |}). set (sec := (is_undirected c && negb (u =? v)) || is_bidirectional c).
    replace (if sec then ([] : schedule) else []) with ([] : schedule) by (destruct sec; reflexivity).
    destruct (is_undirected c); [destruct (u =? v)|destruct (is_bidirectional c)]; try reflexivity.
    + destruct (outs g2 v) as [ve| | | |]; cbn [bind omap]; try reflexivity. destruct (set_outs g2 v (fst (id_emplace c ve u p))); reflexivity.
    + destruct (ins g2 v) as [ve| | | |]; cbn [bind omap]; try reflexivity. destruct (set_ins g2 v (fst (id_emplace c ve u oe))); reflexivity.
  - destruct (outs (reserve_vertices g u v) u) as [ue| | | |]; cbn; try reflexivity.
    destruct (id_emplace c ue v e0) as [ue1 [oe ok]]. destruct ok; cbn [negb]; [|reflexivity].
    destruct (set_outs (reserve_vertices g u v) u ue1) as [g1| | | |]; cbn [bind omap]; try reflexivity.
    destruct (el_add_edge c (g_edges g1) u v p) as [el e].
    set (g2 := {| g_vertices := g_vertices g1; g_edges := el |}). set (sec := (is_undirected c && negb (u =? v)) || is_bidirectional c).
    rewrite !andb_false_r. replace (if sec then ([] : schedule) else []) with ([] : schedule) by (destruct sec; reflexivity).
    destruct (outs g2 u) as [ue2| | | |]; cbn [bind omap]; try reflexivity. destruct (set_second ue2 oe e) as [ue3| | | |]; cbn [bind omap]; try reflexivity.
    destruct (set_outs g2 u ue3) as [g3| | | |]; cbn [bind omap]; try reflexivity.
    destruct (is_undirected c); [destruct (u =? v)|destruct (is_bidirectional c)]; try reflexivity.
    + destruct (outs g3 v) as [ve| | | |]; cbn [bind omap]; try reflexivity. destruct (set_outs g3 v (fst (id_emplace c ve u e))); reflexivity.
    + destruct (ins g3 v) as [ve| | | |]; cbn [bind omap]; try reflexivity. destruct (set_ins g3 v (fst (id_emplace c ve u e))); reflexivity.
Qed.

(** ** Specification: what is kept about edges *)
(* Entries in the list of a vertex. *)
Definition out_count (g : graph) (w : nat) : nat := match outs g w with Ok l => length l | _ => 0 end.
Definition in_count (g : graph) (w : nat) : nat := match ins g w with Ok l => length l | _ => 0 end.
(* [v] is in the list of [u]. *)
Definition lists (g : graph) (u v : nat) : Prop := exists l x, outs g u = Ok l /\ In x l /\ en_first x = Some v.
(* Nothing but vertices without edges is new. *)
Definition same_edges (g g' : graph) : Prop :=
  vertex_count g <= vertex_count g' /\ g_edges g' = g_edges g /\
  (forall w, w < vertex_count g -> outs g' w = outs g w /\ ins g' w = ins g w) /\
  (forall w, vertex_count g <= w -> w < vertex_count g' -> outs g' w = Ok [] /\ ins g' w = Ok []).

Lemma same_edges_refl : forall g, same_edges g g.
Proof. intros. unfold same_edges. repeat split; auto; lia. Qed.

Lemma same_edges_reserve : forall g u v, same_edges g (reserve_vertices g u v).
Proof.
  intros. unfold reserve_vertices. destruct (vertex_count g <=? Nat.max u v) eqn:E; [|apply same_edges_refl].
  apply Nat.leb_le in E. unfold same_edges, vertex_count, outs, ins, at_id in *. cbn [g_vertices g_edges]. rewrite app_length, repeat_length.
  split; [lia|]. split; [reflexivity|]. split; intros w H.
  - rewrite nth_error_app1 by exact H. auto.
  - intros H1. rewrite nth_error_app2 by exact H.
    destruct (nth_error (repeat {| vd_outs := []; vd_ins := [] |} (S (Nat.max u v) - length (g_vertices g))) (w - length (g_vertices g))) as [d|] eqn:D.
    + apply nth_error_In, repeat_spec in D. subst d. split; reflexivity.
    + apply nth_error_None in D. rewrite repeat_length in D. lia.
Qed.

Lemma outs_out : forall g w, vertex_count g <= w -> outs g w = AssertFail /\ ins g w = AssertFail.
Proof. intros. unfold outs, ins, at_id. apply nth_error_None in H. rewrite H. split; reflexivity. Qed.

Lemma same_edges_counts : forall g g', same_edges g g' -> (forall w, out_count g' w = out_count g w) /\ (forall w, in_count g' w = in_count g w) /\ edge_count g' = edge_count g.
Proof.
  intros g g' (H1 & H2 & H3 & H4). unfold out_count, in_count, edge_count. rewrite H2. repeat split; intros w.
  - destruct (lt_dec w (vertex_count g)) as [L|L]; [destruct (H3 w L) as [-> _]; reflexivity|]. destruct (outs_out g w) as [-> _]; [lia|].
    destruct (lt_dec w (vertex_count g')) as [L'|L']; [destruct (H4 w) as [-> _]; [lia|lia|reflexivity]|]. destruct (outs_out g' w) as [-> _]; [lia|reflexivity].
  - destruct (lt_dec w (vertex_count g)) as [L|L]; [destruct (H3 w L) as [_ ->]; reflexivity|]. destruct (outs_out g w) as [_ ->]; [lia|].
    destruct (lt_dec w (vertex_count g')) as [L'|L']; [destruct (H4 w) as [_ ->]; [lia|lia|reflexivity]|]. destruct (outs_out g' w) as [_ ->]; [lia|reflexivity].
Qed.

Lemma set_outs_spec : forall g u l g', set_outs g u l = Ok g' ->
  u < vertex_count g /\ vertex_count g' = vertex_count g /\ g_edges g' = g_edges g /\
  (forall w, outs g' w = if w =? u then Ok l else outs g w) /\ (forall w, ins g' w = ins g w).
Proof.
  intros g u l g' H. unfold set_outs, at_id in H. destruct (nth_error (g_vertices g) u) as [d|] eqn:D; [|discriminate]. cbn in H. injection H as <-.
  assert (L : u < length (g_vertices g)) by (apply nth_error_Some; congruence).
  unfold vertex_count, outs, ins, at_id. cbn [g_vertices g_edges]. rewrite AdjProofs.set_nth_length. repeat split; auto; intros w.
  - rewrite AdjProofs.nth_error_set_nth by exact L. destruct (w =? u); reflexivity.
  - rewrite AdjProofs.nth_error_set_nth by exact L. destruct (Nat.eqb_spec w u) as [->|N]; [|reflexivity]. rewrite D. reflexivity.
Qed.

Lemma set_outs_ok : forall g u l, u < vertex_count g -> exists g', set_outs g u l = Ok g'.
Proof. intros g u l H. unfold set_outs, at_id. unfold vertex_count in H. apply nth_error_Some in H. destruct (nth_error (g_vertices g) u); [|congruence]. cbn. eauto. Qed.

Lemma outs_ok : forall g u, u < vertex_count g -> exists l, outs g u = Ok l.
Proof. intros g u H. unfold outs, at_id. unfold vertex_count in H. apply nth_error_Some in H. destruct (nth_error (g_vertices g) u); [|congruence]. cbn. eauto. Qed.

Lemma id_emplace_new : forall c l v b l1 i, id_emplace c l v b = (l1, (i, true)) ->
  i = length l /\ l1 = l ++ [{| en_first := if has_out_vertex c then Some v else None; en_second := b |}].
Proof. intros c l v b l1 i H. unfold id_emplace in H. destruct (c_unique c && existsb (has_key v) l); [discriminate|]. injection H as <- <-. auto. Qed.

Lemma set_nth_last : forall A (l : list A) x y, set_nth (length l) y (l ++ [x]) = l ++ [y].
Proof. induction l as [|z l IH]; intros; cbn; [reflexivity|]. now rewrite IH. Qed.

Lemma set_second_last : forall l x b, set_second (l ++ [x]) (length l) b = Ok (l ++ [{| en_first := en_first x; en_second := b |}]).
Proof. intros. unfold set_second, at_id. rewrite nth_error_app2 by lia. rewrite Nat.sub_diag. cbn. rewrite set_nth_last. reflexivity. Qed.

(* The graph after the third step. *)
Definition halfway (c : config) (r g : graph) (u v : nat) : Prop :=
  vertex_count g = vertex_count r /\ (exists x, g_edges g = g_edges r ++ [x]) /\
  (exists ue b, outs r u = Ok ue /\ (forall w, outs g w = if w =? u then Ok (ue ++ [{| en_first := if has_out_vertex c then Some v else None; en_second := b |}]) else outs r w)) /\
  (forall w, ins g w = ins r w).

Lemma third_step : forall c e0 r u v p ue ue1 oe g1 el e g3,
  outs r u = Ok ue -> id_emplace c ue v (if sel_none c then p else e0) = (ue1, (oe, true)) -> set_outs r u ue1 = Ok g1 ->
  el_add_edge c (g_edges g1) u v (if sel_none c then 0 else p) = (el, e) ->
  (if sel_none c then Ok {| g_vertices := g_vertices g1; g_edges := el |} else
     do ue2 <- outs {| g_vertices := g_vertices g1; g_edges := el |} u;
     do ue3 <- set_second ue2 oe e;
     set_outs {| g_vertices := g_vertices g1; g_edges := el |} u ue3) = Ok g3 ->
  halfway c r g3 u v.
Proof.
  intros c e0 r u v p ue ue1 oe g1 el e g3 O I S E H. apply id_emplace_new in I. destruct I as [-> ->].
  apply set_outs_spec in S. destruct S as (L & N & G & SO & SI).
  assert (EL : exists x, el = g_edges r ++ [x]).
  { unfold el_add_edge in E. rewrite G in E. destruct (if is_undirected c && (v <? u) then (v, u) else (u, v)). injection E as <- <-. eauto. }
  set (g2 := {| g_vertices := g_vertices g1; g_edges := el |}) in *.
  assert (O2 : forall w, outs g2 w = outs g1 w) by reflexivity. assert (I2 : forall w, ins g2 w = ins g1 w) by reflexivity.
  destruct (sel_none c).
  - injection H as <-. split; [exact N|]. split; [exact EL|]. split; [|intros w; rewrite I2; apply SI].
    exists ue, p. split; [exact O|]. intros w. rewrite O2. apply SO.
  - rewrite O2, SO, Nat.eqb_refl in H. cbn [bind] in H. rewrite set_second_last in H. cbn [bind en_first] in H.
    apply set_outs_spec in H. destruct H as (L2 & N2 & G2 & SO2 & SI2).
    split; [rewrite N2; exact N|]. split; [rewrite G2; exact EL|]. split; [|intros w; rewrite SI2, I2; apply SI].
    exists ue, e. split; [exact O|]. intros w. rewrite SO2. destruct (w =? u) eqn:W; [reflexivity|]. rewrite O2, SO, W. reflexivity.
Qed.

Definition second_end (c : config) (u v : nat) : bool := (is_undirected c && negb (u =? v)) || is_bidirectional c.

Lemma eadd_failed : forall c e0 sch g u v p g' sch', eadd c e0 sch g u v p = Ok (g', sch', None) ->
  same_edges g g' \/
  (sel_none c = false /\ exists ue b, outs (reserve_vertices g u v) u = Ok ue /\ g_edges g' = g_edges g /\ vertex_count g' = vertex_count (reserve_vertices g u v) /\
     (forall w, outs g' w = if w =? u then Ok (ue ++ [{| en_first := if has_out_vertex c then Some v else None; en_second := b |}]) else outs (reserve_vertices g u v) w) /\
     (forall w, ins g' w = ins (reserve_vertices g u v) w)) \/
  (second_end c u v = true /\ halfway c (reserve_vertices g u v) g' u v).
Proof.
  intros c e0 sch g u v p g' sch' H. unfold eadd in H. fold (second_end c u v) in H.
  destruct ((vertex_count g <=? Nat.max u v) && throws sch); [injection H as <- <-; left; apply same_edges_refl|].
  set (s1 := if vertex_count g <=? Nat.max u v then next sch else sch) in *. set (r := reserve_vertices g u v) in *.
  assert (GE : g_edges r = g_edges g) by (apply same_edges_reserve).
  destruct (outs r u) as [ue| | | |] eqn:O; cbn [bind] in H; try discriminate.
  destruct (throws s1); [injection H as <- <-; left; apply same_edges_reserve|].
  destruct (id_emplace c ue v (if sel_none c then p else e0)) as [ue1 [oe ok]] eqn:I. destruct ok; cbn [negb] in H; [|discriminate].
  destruct (set_outs r u ue1) as [g1| | | |] eqn:S; cbn [bind] in H; try discriminate.
  destruct (negb (sel_none c) && throws (next s1)) eqn:T.
  { injection H as <- <-. right. left. apply andb_true_iff in T. destruct T as [T _]. apply negb_true_iff in T. split; [exact T|].
    apply id_emplace_new in I. destruct I as [-> ->]. apply set_outs_spec in S. destruct S as (L & N & G & SO & SI).
    exists ue, (if sel_none c then p else e0). rewrite GE in G. repeat split; auto. }
  destruct (el_add_edge c (g_edges g1) u v (if sel_none c then 0 else p)) as [el e] eqn:E.
  match type of H with bind ?m _ = _ => destruct m as [g3| | | |] eqn:H3 end; cbn [bind] in H; try discriminate.
  pose proof (third_step c e0 r u v p ue ue1 oe g1 el e g3 O I S E H3) as HW.
  set (s2 := if sel_none c then next s1 else next (next s1)) in *.
  destruct (second_end c u v && throws s2) eqn:T2.
  - injection H as <- <-. right. right. apply andb_true_iff in T2. destruct T2 as [T2 _]. auto.
  - match type of H with bind ?m _ = _ => destruct m as [g4| | | |] eqn:H4 end; cbn [bind] in H; discriminate.
Qed.

Lemma halfway_counts : forall c r g u v, halfway c r g u v ->
  edge_count g = S (edge_count r) /\ (forall w, out_count g w = out_count r w + if w =? u then 1 else 0) /\ (forall w, in_count g w = in_count r w).
Proof.
  intros c r g u v (N & (x & G) & (ue & b & O & SO) & SI). unfold edge_count, out_count, in_count. rewrite G, app_length. split; [cbn; lia|].
  split; intros w.
  - rewrite SO. destruct (Nat.eqb_spec w u) as [->|]; [rewrite O, app_length; reflexivity|lia].
  - now rewrite SI.
Qed.

Lemma lists_spec : forall g u v l, outs g u = Ok l -> (lists g u v <-> existsb (has_key v) l = true).
Proof.
  intros g u v l O. unfold lists. rewrite existsb_exists. split.
  - intros (l1 & x & O1 & I & F). rewrite O in O1. injection O1 as <-. exists x. split; [exact I|]. unfold has_key. rewrite F. apply Nat.eqb_refl.
  - intros (x & I & F). exists l, x. split; [exact O|]. split; [exact I|]. unfold has_key in F. destruct (en_first x); [|discriminate]. apply Nat.eqb_eq in F. now subst.
Qed.

Lemma reserve_same : forall g u v, u < vertex_count g -> v < vertex_count g -> reserve_vertices g u v = g.
Proof. intros. unfold reserve_vertices. destruct (Nat.leb_spec (vertex_count g) (Nat.max u v)); [lia|reflexivity]. Qed.

Lemma eadd_refused : forall c e0 g u v p, u < vertex_count g -> v < vertex_count g -> c_unique c = true -> lists g u v ->
  eadd c e0 [] g u v p = Ok (g, [], Some (default_edge, false)).
Proof.
  intros c e0 g u v p U V C H. unfold eadd. rewrite reserve_same by assumption.
  destruct (Nat.leb_spec (vertex_count g) (Nat.max u v)); [lia|]. cbn [andb throws].
  destruct (outs_ok g u U) as (l & O). rewrite O. cbn [bind]. apply (lists_spec g u v l O) in H.
  unfold id_emplace. rewrite C, H. reflexivity.
Qed.

Definition last_step (c : config) : schedule := repeat false (if sel_none c then 1 else 2) ++ [true].

Lemma eadd_last : forall c e0 g u v p, u < vertex_count g -> v < vertex_count g -> (c_unique c = true -> ~ lists g u v) -> second_end c u v = true ->
  exists g', eadd c e0 (last_step c) g u v p = Ok (g', [], None) /\ halfway c g g' u v.
Proof.
  intros c e0 g u v p U V NL SE. unfold eadd. fold (second_end c u v). rewrite reserve_same by assumption.
  destruct (Nat.leb_spec (vertex_count g) (Nat.max u v)); [lia|]. cbn [andb].
  destruct (outs_ok g u U) as (l & O). rewrite O. cbn [bind].
  assert (T : throws (last_step c) = false) by (unfold last_step; destruct (sel_none c); reflexivity). rewrite T.
  destruct (id_emplace c l v (if sel_none c then p else e0)) as [ue1 [oe ok]] eqn:I.
  assert (K : ok = true).
  { unfold id_emplace in I. destruct (c_unique c && existsb (has_key v) l) eqn:B; [|injection I; auto].
    apply andb_true_iff in B. destruct B as [B1 B2]. exfalso. apply (NL B1). apply (lists_spec g u v l O). exact B2. }
  subst ok. cbn [negb]. destruct (set_outs_ok g u ue1 U) as (g1 & S). rewrite S. cbn [bind].
  replace (negb (sel_none c) && throws (next (last_step c))) with false by (unfold last_step; destruct (sel_none c); reflexivity).
  destruct (el_add_edge c (g_edges g1) u v (if sel_none c then 0 else p)) as [el e] eqn:E.
  set (g2 := {| g_vertices := g_vertices g1; g_edges := el |}).
  assert (H3 : exists g3, (if sel_none c then Ok g2 else do ue2 <- outs g2 u; do ue3 <- set_second ue2 oe e; set_outs g2 u ue3) = Ok g3).
  { destruct (sel_none c); [eauto|]. pose proof (set_outs_spec _ _ _ _ S) as (L & N & G & SO & SI).
    change (outs g2 u) with (outs g1 u). rewrite SO, Nat.eqb_refl. cbn [bind]. apply id_emplace_new in I. destruct I as [-> ->].
    rewrite set_second_last. cbn [bind]. apply set_outs_ok. unfold vertex_count, g2 in *. cbn [g_vertices]. lia. }
  destruct H3 as (g3 & H3). rewrite H3. cbn [bind]. rewrite SE. cbn [andb].
  replace (throws (if sel_none c then next (last_step c) else next (next (last_step c)))) with true by (unfold last_step; destruct (sel_none c); reflexivity).
  exists g3. split.
  - unfold last_step. destruct (sel_none c); reflexivity.
  - eapply third_step; eassumption.
Qed.

(* Adding in the other direction. *)
Lemma try_other_way : forall c e0 g u v p, u < vertex_count g -> v < vertex_count g -> u <> v -> is_undirected c = true -> c_unique c = true ->
  lists g u v -> ~ lists g v u -> exists g' r, eadd c e0 [] g v u p = Ok (g', [], Some (r, true)) /\ edge_count g' = S (edge_count g) /\
    (forall w, out_count g' w = out_count g w + if w =? v then 1 else 0).
Proof.
  intros c e0 g u v p U V N UD C L NL. unfold eadd. rewrite reserve_same by assumption.
  destruct (Nat.leb_spec (vertex_count g) (Nat.max v u)); [lia|]. cbn [andb throws next tl].
  destruct (outs_ok g v V) as (l & O). rewrite O. cbn [bind].
  destruct (id_emplace c l u (if sel_none c then p else e0)) as [ue1 [oe ok]] eqn:I.
  assert (K : ok = true).
  { unfold id_emplace in I. destruct (c_unique c && existsb (has_key u) l) eqn:B; [|injection I; auto].
    apply andb_true_iff in B. destruct B as [B1 B2]. exfalso. apply NL. apply (lists_spec g v u l O). exact B2. }
  subst ok. cbn [negb]. destruct (set_outs_ok g v ue1 V) as (g1 & S). rewrite S. cbn [bind]. rewrite andb_false_r.
  destruct (el_add_edge c (g_edges g1) v u (if sel_none c then 0 else p)) as [el e] eqn:E.
  set (g2 := {| g_vertices := g_vertices g1; g_edges := el |}).
  assert (H3 : exists g3, (if sel_none c then Ok g2 else do ue2 <- outs g2 v; do ue3 <- set_second ue2 oe e; set_outs g2 v ue3) = Ok g3).
  { destruct (sel_none c); [eauto|]. pose proof (set_outs_spec _ _ _ _ S) as (L1 & N1 & G & SO & SI).
    change (outs g2 v) with (outs g1 v). rewrite SO, Nat.eqb_refl. cbn [bind]. apply id_emplace_new in I. destruct I as [-> ->].
    rewrite set_second_last. cbn [bind]. apply set_outs_ok. unfold vertex_count, g2 in *. cbn [g_vertices]. lia. }
  destruct H3 as (g3 & H3). rewrite H3. cbn [bind].
  pose proof (third_step c e0 g v u p l ue1 oe g1 el e g3 O I S E H3) as HW.
  pose proof (halfway_counts _ _ _ _ _ HW) as (HE & HO & _). destruct HW as (HN & _ & (ue & b & _ & SO) & _).
  destruct (outs_ok g u U) as (lu & OU). assert (OU3 : outs g3 u = Ok lu) by (rewrite SO; destruct (Nat.eqb_spec u v); [congruence|exact OU]).
  rewrite UD. destruct (Nat.eqb_spec v u); [congruence|]. rewrite OU3. cbn [bind negb andb orb].
  assert (ID : forall b', fst (id_emplace c lu v b') = lu).
  { intros b'. unfold id_emplace. rewrite C. apply (lists_spec g u v lu OU) in L. rewrite L. reflexivity. }
  rewrite ID. assert (U3 : u < vertex_count g3) by lia. destruct (set_outs_ok g3 u lu U3) as (g4 & S4). rewrite S4. cbn [bind].
  replace (if sel_none c then ([] : schedule) else []) with ([] : schedule) by (destruct (sel_none c); reflexivity). cbn [throws next tl].
  eexists g4, _. split; [reflexivity|]. apply set_outs_spec in S4. destruct S4 as (_ & _ & G4 & SO4 & _).
  split; [unfold edge_count in *; rewrite G4; exact HE|]. intros w. rewrite <- HO. unfold out_count. rewrite SO4.
  destruct (Nat.eqb_spec w u) as [->|]; [rewrite OU3|]; reflexivity.
Qed.
