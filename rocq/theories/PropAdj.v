(** Adjacency list and edge list: properties C46, C47, C48, C66, C67. *)
From Coq Require Import ZArith List Bool Arith Lia Permutation.
From Verif Require Import Outcome AdjModel AdjProofs.
Import ListNotations.

(** ** C46: the other end point *)

Section Xor.
  Local Open Scope Z_scope.

  Theorem C46_other_end (u v : Z) :
    one_vertex_other (one_vertex u v) u = v /\ one_vertex_other (one_vertex u v) v = u /\
    two_vertices_other (two_vertices u v) u = v /\ two_vertices_other (two_vertices u v) v = u /\
    directed_one_other (directed_one u v) u = v.
  Proof.
    unfold one_vertex_other, one_vertex, two_vertices_other, two_vertices,
      directed_one_other, directed_one. cbn [fst snd].
    assert (X : forall a b, Z.lxor a (Z.lxor a b) = b)
      by (intros; now rewrite <- Z.lxor_assoc, Z.lxor_nilpotent, Z.lxor_0_l).
    repeat split.
    - apply X.
    - now rewrite (Z.lxor_comm u v).
    - now rewrite Z.lxor_nilpotent, Z.lxor_0_l.
    - rewrite Z.lxor_assoc, (Z.lxor_comm u v). apply X.
  Qed.

  (** The stored value fits the vertex type, signed or unsigned of any width. *)
  Theorem C46_stored_fits (w u v : Z) :
    0 < w ->
    (- 2 ^ (w - 1) <= u < 2 ^ (w - 1) -> - 2 ^ (w - 1) <= v < 2 ^ (w - 1) ->
     - 2 ^ (w - 1) <= one_vertex u v < 2 ^ (w - 1)) /\
    (0 <= u < 2 ^ w -> 0 <= v < 2 ^ w -> 0 <= one_vertex u v < 2 ^ w).
  Proof.
    intro W. unfold one_vertex.
    assert (NN : forall k a b, 0 <= k -> 0 <= a < 2 ^ k -> 0 <= b < 2 ^ k -> 0 <= Z.lxor a b < 2 ^ k).
    { intros k a b K A B. assert (0 <= Z.lxor a b) by (apply Z.lxor_nonneg; lia). split; [assumption|].
      destruct (Z.eq_dec (Z.lxor a b) 0) as [->|D]; [lia|].
      apply Z.log2_lt_pow2; [lia|].
      assert (L : forall x, 0 <= x < 2 ^ k -> x = 0 \/ Z.log2 x < k).
      { intros x Hx. destruct (Z.eq_dec x 0); [auto|]. right. apply Z.log2_lt_pow2; lia. }
      pose proof (Z.log2_lxor a b ltac:(lia) ltac:(lia)).
      destruct (L a A) as [->|], (L b B) as [->|]; try lia.
      - elim D. reflexivity.
      - rewrite Z.lxor_0_l in *. lia.
      - rewrite Z.lxor_0_r in *. lia. }
    split; [|apply NN; lia].
    intros U V. set (k := w - 1) in *. assert (K : 0 <= k) by lia.
    destruct (Z_lt_dec u 0) as [Hu|Hu], (Z_lt_dec v 0) as [Hv|Hv].
    - rewrite <- (Z.lnot_involutive u), <- (Z.lnot_involutive v), Z.lxor_lnot_lnot.
      specialize (NN k (Z.lnot u) (Z.lnot v) K). unfold Z.lnot in *. lia.
    - rewrite <- (Z.lnot_involutive u), <- Z.lnot_lxor_l.
      specialize (NN k (Z.lnot u) v K). unfold Z.lnot in *. lia.
    - rewrite <- (Z.lnot_involutive v), <- Z.lnot_lxor_r.
      specialize (NN k u (Z.lnot v) K). unfold Z.lnot in *. lia.
    - specialize (NN k u v K). lia.
  Qed.

  (** Vertices that are not integers. *)
  Theorem C46_other_end_pointer {V} (eqb : V -> V -> bool) (u v : V) :
    (forall a b, eqb a b = true <-> a = b) ->
    two_vertices_other_ptr eqb (u, v) u = v /\ two_vertices_other_ptr eqb (u, v) v = u.
  Proof.
    intro E. unfold two_vertices_other_ptr. cbn [fst snd].
    rewrite (proj2 (E u u) eq_refl). split; [reflexivity|].
    destruct (eqb v u) eqn:X; [now apply E|reflexivity].
  Qed.

  Example C46_case :
    one_vertex_other (one_vertex (-5) 7) (-5) = 7 /\ one_vertex (-5) 7 = -4 /\
    two_vertices_other (two_vertices 6 6) 6 = 6.
  Proof. vm_compute. auto. Qed.
  Example C46_case_ptr : two_vertices_other_ptr Nat.eqb (3, 8)%nat 8%nat = 3%nat.
  Proof. reflexivity. Qed.
End Xor.

(** ** C47: counts and lists *)

(** A small history used by the examples: a loop, parallel edges, a far vertex. *)
Definition hist : list (nat * nat * nat) :=
  [(0, 1, 10); (1, 0, 11); (2, 2, 12); (0, 1, 13); (4, 2, 14)].
Definition zero (_ : nat) : nat := 0.

(** The test used in the statements below. *)
Lemma is_undirected_iff c : is_undirected c = true <-> c_dir c = Undirected.
Proof. unfold is_undirected. destruct (c_dir c); split; congruence. Qed.

Theorem C47_counts c n0 h e0 :
  let A := accept (c_unique c) (is_undirected c) [] h in
  exists g rs,
    run c (empty_graph n0) h e0 = Ok (g, rs) /\
    edge_count g = length A /\
    vertex_count g = needed n0 h /\
    map snd rs = replies (c_unique c) (is_undirected c) [] h /\
    edge_count g = length (filter (fun b => b) (map snd rs)) /\
    Forall2 (fun (x : nat * nat * nat) (r : edge * bool) =>
      snd r = true ->
      e_source (fst r) = rq_src x /\ e_target (fst r) = rq_tgt x /\
      edge_bundle c g (fst r) = Ok (snd x)) h rs.
Proof.
  intro A. destruct (history c n0 h e0) as (R & rs & H1 & H2 & H3 & H4 & H5).
  exists (stored c (needed n0 h) R), rs.
  rewrite edge_count_stored, <- (rev_length R), H3. fold A.
  split; [exact H1|]. split; [reflexivity|]. split; [apply vertex_count_mk|].
  split; [exact H4|]. split.
  - rewrite H4. unfold A. clear.
    assert (G : forall h a, length (accept (c_unique c) (is_undirected c) a h) =
               length a + length (filter (fun b => b) (replies (c_unique c) (is_undirected c) a h))).
    { clear. induction h as [|x h IH]; intro a; simpl; [lia|].
      destruct (c_unique c && existsb (joins (is_undirected c) (rq_src x) (rq_tgt x)) a); simpl; rewrite IH; [lia|].
      rewrite app_length. simpl. lia. }
    rewrite G. reflexivity.
  - revert H5. generalize (stored c (needed n0 h) R). clear. intros g H5.
    induction H5 as [|x r h' rs' H5 _ IH]; constructor; auto.
    unfold reply_ok in H5. intro E. rewrite E in H5. exact H5.
Qed.

Example C47_counts_case :
  exists g rs, run {| c_dir := Undirected; c_unique := true; c_sel := SelOne |} (empty_graph 1) hist zero = Ok (g, rs)
  /\ edge_count g = 3 /\ vertex_count g = 5 /\ map snd rs = [true; false; true; false; true].
Proof. eexists _, _. vm_compute. auto. Qed.

Theorem C47_out_edges c n0 h e0 g rs u :
  run c (empty_graph n0) h e0 = Ok (g, rs) -> u < vertex_count g ->
  exists es,
    out_edges c g u = Ok es /\ degree c g u = Ok (length es) /\
    describe c g es =
      Ok (spec_out (is_undirected c) (accept (c_unique c) (is_undirected c) [] h) u).
Proof.
  intros H Lu. destruct (history c n0 h e0) as (R & rs' & H1 & H2 & H3 & _).
  rewrite H1 in H. injection H as <- <-. unfold stored in Lu. rewrite vertex_count_mk in Lu.
  exists (oe c R u). rewrite <- H3. split; [|split].
  - now apply out_edges_stored.
  - unfold degree. now rewrite out_edges_stored.
  - now apply describe_out.
Qed.

Theorem C47_in_edges c n0 h e0 g rs u :
  run c (empty_graph n0) h e0 = Ok (g, rs) -> u < vertex_count g ->
  c_dir c = Bidirectional \/ (c_dir c = Undirected /\ c_sel c <> SelNone) ->
  exists es,
    in_edges c g u = Ok es /\
    describe c g es =
      Ok (spec_in (is_undirected c) (accept (c_unique c) (is_undirected c) [] h) u).
Proof.
  intros H Lu D. destruct (history c n0 h e0) as (R & rs' & H1 & H2 & H3 & _).
  rewrite H1 in H. injection H as <- <-. unfold stored in Lu. rewrite vertex_count_mk in Lu.
  rewrite <- H3. destruct D as [Bi|[Un SN]].
  - assert (is_bidirectional c = true) by (unfold is_bidirectional; now rewrite Bi). clear Bi. rename H into Bi.
    destruct (in_edges_bidirectional c _ _ _ Bi H2 Lu). eauto.
  - apply is_undirected_iff in Un.
    assert (sel_none c = false) by (unfold sel_none; destruct (c_sel c); congruence).
    destruct (in_edges_undirected c (needed n0 h) R u Un Lu) as (G1 & _ & G2). eauto.
Qed.

(** Without an edge container the end points of the in-edges of an undirected
    graph are right ... *)
Theorem C47_in_edges_end_points c n0 h e0 g rs u :
  run c (empty_graph n0) h e0 = Ok (g, rs) -> u < vertex_count g ->
  c_dir c = Undirected ->
  exists es,
    in_edges c g u = Ok es /\
    map (fun e => (e_source e, e_target e)) es =
      map fst (spec_in true (accept (c_unique c) true [] h) u).
Proof.
  intros H Lu Un. apply is_undirected_iff in Un. destruct (history c n0 h e0) as (R & rs' & H1 & H2 & H3 & _).
  rewrite H1 in H. injection H as <- <-. unfold stored in Lu. rewrite vertex_count_mk in Lu.
  destruct (in_edges_undirected c (needed n0 h) R u Un Lu) as (G1 & G2 & _).
  rewrite H3, Un in G2. eauto.
Qed.

(** ... but such an edge leads to the bundle of another edge: an in-edge of 2
    is the edge (0, 2) with bundle 20, and its bundle is read as 10. *)
Theorem C47_in_edge_bundle_refuted :
  exists c g rs es,
    run c (empty_graph 0) [(0, 1, 10); (0, 2, 20)] zero = Ok (g, rs) /\
    in_edges c g 2 = Ok es /\
    describe c g es = Ok [(0, 2, 10)] /\
    spec_in (is_undirected c) [(0, 1, 10); (0, 2, 20)] 2 = [(0, 2, 20)].
Proof.
  exists {| c_dir := Undirected; c_unique := false; c_sel := SelNone |}.
  eexists _, _, _. vm_compute. auto.
Qed.

Theorem C47_edges c n0 h e0 g rs fuel :
  run c (empty_graph n0) h e0 = Ok (g, rs) ->
  0 < vertex_count g ->
  S (vertex_count g + 2 * edge_count g) < fuel ->
  exists es ds,
    edges fuel c g = Ok es /\
    describe c g es = Ok ds /\
    Permutation ds (map (normal (is_undirected c))
                        (accept (c_unique c) (is_undirected c) [] h)) /\
    forall i j e f, nth_error es i = Some e -> nth_error es j = Some f -> edge_eqb c e f = (i =? j).
Proof.
  enough (K : run c (empty_graph n0) h e0 = Ok (g, rs) -> 0 < vertex_count g ->
    S (vertex_count g + 2 * edge_count g) < fuel ->
    exists es ds, edges fuel c g = Ok es /\ describe c g es = Ok ds /\
      Permutation ds (map (normal (is_undirected c)) (accept (c_unique c) (is_undirected c) [] h)) /\
      NoDup (map (edge_id c) es)).
  { intros H Ln F. destruct (K H Ln F) as (es & ds & A & B & C & D). exists es, ds.
    split; [exact A|]. split; [exact B|]. split; [exact C|].
    intros i j e f Hi Hj. unfold edge_eqb.
    assert (E : edge_id c e = edge_id c f <-> i = j).
    { split.
      - intro E. rewrite NoDup_nth_error in D. apply D.
        + rewrite map_length. apply nth_error_Some. congruence.
        + now rewrite !nth_error_map, Hi, Hj; cbn [option_map]; rewrite E.
      - intros ->. congruence. }
    rewrite (surjective_pairing (edge_id c e)), (surjective_pairing (edge_id c f)) in E.
    apply eq_true_iff_eq. rewrite andb_true_iff, !Nat.eqb_eq, <- E. split; [intros [-> ->]; reflexivity | intro X; now injection X]. }
  intros H Ln F. destruct (history c n0 h e0) as (R & rs' & H1 & H2 & H3 & _).
  rewrite H1 in H. injection H as <- <-. rewrite edge_count_stored in F.
  unfold stored in Ln, F. rewrite vertex_count_mk in Ln, F. set (n := needed n0 h) in *.
  rewrite <- H3. destruct (c_sel c) eqn:ES.
  4: { destruct (edges_two c fuel n R ES) as (G1 & G2 & G3).
       eexists _, _. split; [exact G1|]. split; [exact G2|]. split; [reflexivity|].
       rewrite G3. apply FinFun.Injective_map_NoDup; [intros x y E; congruence|apply seq_NoDup]. }
  all: exists (all_edges c n R), (map fst (flat_map (kept c R) (seq 0 n)));
    (split; [apply edges_stored; [exact Ln|congruence| |];
             [pose proof (weight_bound c n R Ln); lia|pose proof (all_edges_bound c n R); lia]|]);
    (split; [apply all_describe|]);
    (split; [rewrite <- indexed_fst; apply Permutation_map, kept_permutation, H2|]);
    apply all_edges_ids, H2.
Qed.

(** Parallel edges, a loop and an unused vertex, for all four ways of storing. *)
Example C47_edges_case :
  Forall (fun s =>
    match run {| c_dir := Undirected; c_unique := false; c_sel := s |} (empty_graph 0) hist zero with
    | Ok (g, _) =>
        match edges 30 {| c_dir := Undirected; c_unique := false; c_sel := s |} g with
        | Ok es => length es = 5 /\ edge_count g = 5
        | _ => False end
    | _ => False end) [SelNone; SelProperty; SelOne; SelTwo].
Proof. repeat (apply Forall_cons; [vm_compute; auto|]). apply Forall_nil. Qed.
Example C47_in_edges_case :
  match run {| c_dir := Bidirectional; c_unique := false; c_sel := SelOne |} (empty_graph 0) hist zero with
  | Ok (g, _) => match in_edges {| c_dir := Bidirectional; c_unique := false; c_sel := SelOne |} g 1 with
                 | Ok es => map e_source es = [0; 0] /\ map e_bundle es = [0; 3]
                 | _ => False end
  | _ => False end.
Proof. vm_compute. auto. Qed.

(** Asking for the edges of a graph without vertices fails. *)
Theorem C47_edges_no_vertices_refuted c fuel :
  c_sel c <> SelTwo -> edges fuel c (empty_graph 0) = AssertFail.
Proof. intro H. unfold edges. destruct (c_sel c); try reflexivity. congruence. Qed.

(** ** C48: no parallel edges *)

Lemma joins_iff und u v x :
  joins und u v x = true <->
  (rq_src x = u /\ rq_tgt x = v) \/ (und = true /\ rq_src x = v /\ rq_tgt x = u).
Proof.
  unfold joins. rewrite orb_true_iff, !andb_true_iff, !Nat.eqb_eq. tauto.
Qed.

Lemma joins_trans und u v x y :
  joins und u v x = true -> joins und u v y = true ->
  joins und (rq_src y) (rq_tgt y) x = true.
Proof.
  rewrite !joins_iff. intros [[? ?]|(? & ? & ?)] [[? ?]|(? & ? & ?)].
  - left. split; congruence.
  - right. repeat split; congruence.
  - right. repeat split; congruence.
  - left. split; congruence.
Qed.

Theorem C48_no_parallel_edges c n0 h e0 g rs :
  c_unique c = true ->
  run c (empty_graph n0) h e0 = Ok (g, rs) ->
  forall u v, u < vertex_count g ->
  exists es, out_edges c g u = Ok es /\
    length (filter (fun e => e_target e =? v) es) <= 1.
Proof.
  intros U H u v Lu. destruct (C47_out_edges c n0 h e0 g rs u H Lu) as (es & H1 & _ & H3).
  exists es. split; [exact H1|].
  set (A := accept (c_unique c) (is_undirected c) [] h) in *.
  assert (PA : forall i j x y, i < j -> nth_error A i = Some x -> nth_error A j = Some y ->
     joins (is_undirected c) (rq_src y) (rq_tgt y) x = false).
  { unfold A. rewrite U. apply accept_unique. intros i j x y _ Hi. now destruct i. }
  assert (E : length (filter (fun e => e_target e =? v) es) =
              length (filter (fun x : nat * nat * nat => rq_tgt x =? v) (spec_out (is_undirected c) A u))).
  { revert H3. generalize (spec_out (is_undirected c) A u). clear.
    induction es as [|e es IH]; simpl; intros l H; [injection H as <-; reflexivity|].
    apply bind_Ok in H as (y & Hy & H). apply bind_Ok in Hy as (p & _ & Hy). injection Hy as <-.
    apply bind_Ok in H as (s & Hs & H). injection H as <-. simpl.
    unfold rq_tgt at 1. cbn [fst snd]. specialize (IH s Hs).
    destruct (e_target e =? v); simpl; lia. }
  rewrite E. clear - PA.
  induction A as [|x A IH]; [simpl; lia|].
  unfold spec_out in *. cbn [flat_map].
  assert (PA' : forall i j x y, i < j -> nth_error A i = Some x -> nth_error A j = Some y ->
     joins (is_undirected c) (rq_src y) (rq_tgt y) x = false).
  { intros i j y z L Hi Hj. apply (PA (S i) (S j)); auto. lia. }
  specialize (IH PA'). rewrite filter_app, app_length.
  set (hd := if rq_src x =? u then [x]
             else if is_undirected c && (rq_tgt x =? u) then [(u, rq_src x, snd x)] else []) in *.
  destruct (filter (fun y : nat * nat * nat => rq_tgt y =? v) hd) as [|z zs] eqn:F; [simpl; lia|].
  assert (J : joins (is_undirected c) u v x = true /\ zs = []).
  { unfold hd in F. unfold joins. destruct (rq_src x =? u) eqn:E1.
    - simpl in F. destruct (rq_tgt x =? v); [|discriminate]. injection F as <- <-. auto.
    - destruct (is_undirected c); simpl in F; [|discriminate].
      destruct (rq_tgt x =? u); simpl in F; [|discriminate].
      unfold rq_tgt in F at 1. cbn [fst snd] in F.
      destruct (rq_src x =? v); [|discriminate]. injection F as <- <-. simpl. auto. }
  destruct J as [J ->].
  assert (Z : filter (fun y : nat * nat * nat => rq_tgt y =? v)
      (flat_map (fun x => if rq_src x =? u then [x]
             else if is_undirected c && (rq_tgt x =? u) then [(u, rq_src x, snd x)] else []) A) = []).
  { assert (NJ : forall y, In y A -> joins (is_undirected c) u v y = false).
    { intros y Hy. apply In_nth_error in Hy as [k Hk].
      specialize (PA 0 (S k) x y ltac:(lia) eq_refl Hk).
      apply not_true_is_false. intro Jy. apply not_true_iff_false in PA. apply PA.
      eapply joins_trans; eassumption. }
    clear - NJ. induction A as [|y A IH]; [reflexivity|]. simpl. rewrite filter_app, IH by (intros; apply NJ; now right).
    rewrite app_nil_r. specialize (NJ y (or_introl eq_refl)). unfold joins in NJ.
    destruct (rq_src y =? u) eqn:E1; simpl in *.
    - destruct (rq_tgt y =? v); [discriminate|reflexivity].
    - destruct (is_undirected c); simpl in *; [|reflexivity].
      destruct (rq_tgt y =? u); simpl in *; [|reflexivity].
      unfold rq_tgt at 1. cbn [fst snd]. rewrite andb_true_r in NJ. now rewrite NJ. }
  rewrite Z. simpl. lia.
Qed.

(** A refused insertion reports failure and leaves the graph as it was. *)
Theorem C48_refused_insertion c n0 h e0 g rs e1 u v p :
  c_unique c = true ->
  run c (empty_graph n0) h e0 = Ok (g, rs) ->
  (exists x, In x (accept true (is_undirected c) [] h) /\ joins (is_undirected c) u v x = true) ->
  exists e, try_add_edge c e1 g u v p = Ok (g, (e, false)).
Proof.
  intros U H (x & Hx & J). destruct (history c n0 h e0) as (R & rs' & H1 & H2 & H3 & _).
  rewrite H1 in H. injection H as <- <-. rewrite U in H3.
  rewrite <- H3, <- in_rev in Hx.
  rewrite try_add_edge_stored by assumption.
  unfold refused. rewrite U. cbn [andb].
  rewrite (proj2 (existsb_exists _ _)) by eauto.
  exists default_edge. do 2 f_equal.
  unfold bounded in H2. rewrite Forall_forall in H2. specialize (H2 x Hx).
  replace (Nat.max (needed n0 h) (S (Nat.max u v))) with (needed n0 h); [reflexivity|].
  unfold joins in J. apply orb_true_iff in J as [J|J]; rewrite !andb_true_iff, !Nat.eqb_eq in J; lia.
Qed.

(** An insertion between vertices that are not joined is accepted. *)
Theorem C48_accepted_insertion c n0 h e0 g rs e1 u v p :
  run c (empty_graph n0) h e0 = Ok (g, rs) ->
  (forall x, In x (accept (c_unique c) (is_undirected c) [] h) -> joins (is_undirected c) u v x = false) ->
  exists g' e, try_add_edge c e1 g u v p = Ok (g', (e, true)) /\
    edge_count g' = S (edge_count g) /\ e_source e = u /\ e_target e = v /\
    edge_bundle c g' e = Ok p.
Proof.
  intros H NJ. destruct (history c n0 h e0) as (R & rs' & H1 & H2 & H3 & _).
  rewrite H1 in H. injection H as <- <-.
  rewrite try_add_edge_stored by assumption.
  assert (RF : refused c R u v = false).
  { unfold refused. apply andb_false_iff. right. apply not_true_is_false. intro E.
    apply existsb_exists in E as (x & Hx & J). rewrite (NJ x) in J; [discriminate|].
    now rewrite <- H3, <- in_rev. }
  rewrite RF. eexists _, _. split; [reflexivity|]. rewrite !edge_count_stored.
  split; [reflexivity|]. split; [reflexivity|]. split; [reflexivity|].
  apply (result_edge_bundle c _ [] R u v p). lia.
Qed.

(** The edge returned by a refused insertion is not the existing edge: it is a
    default one that compares equal to an unrelated edge of the graph. *)
Theorem C48_refused_handle_refuted :
  exists c g rs first again,
    c_unique c = true /\
    run c (empty_graph 0) [(0, 1, 10); (2, 3, 20); (2, 3, 30)] zero = Ok (g, rs) /\
    nth_error rs 0 = Some (first, true) /\ nth_error rs 2 = Some (again, false) /\
    edge_eqb c again first = true /\ edge_bundle c g again = Ok 10 /\
    find_edge c g 2 3 = Ok {| e_source := 2; e_target := 3; e_bundle := 1 |}.
Proof.
  exists {| c_dir := Directed; c_unique := true; c_sel := SelProperty |}.
  eexists _, _, _, _. vm_compute. repeat split.
Qed.

Example C48_case :
  exists g rs, run {| c_dir := Undirected; c_unique := true; c_sel := SelTwo |} (empty_graph 0) hist zero = Ok (g, rs)
  /\ try_add_edge {| c_dir := Undirected; c_unique := true; c_sel := SelTwo |} 7 g 1 0 5 = Ok (g, (default_edge, false))
  /\ exists g' e, try_add_edge {| c_dir := Undirected; c_unique := true; c_sel := SelTwo |} 7 g 1 2 5 = Ok (g', (e, true)).
Proof. eexists _, _. split; [vm_compute; reflexivity|]. split; [reflexivity|]. eexists _, _. vm_compute. reflexivity. Qed.

(** ** C66: edge list *)

Theorem C66_edge_list und unique h :
  exists rs,
    let l := map (normal und) (accept unique und [] h) in
    el_run und unique [] h = (l, rs) /\
    map snd rs = replies unique und [] h /\
    map (fun e => (e_source e, e_target e)) (el_edges l) = map fst l /\
    map e_bundle (el_edges l) = seq 0 (length l) /\
    Forall2 (fun (x : nat * nat * nat) r =>
      e_source (fst r) = rq_src (normal und x) /\ e_target (fst r) = rq_tgt (normal und x) /\
      exists p, nth_error l (e_bundle (fst r)) = Some (e_source (fst r), e_target (fst r), p) /\
                (snd r = true -> p = snd x)) h rs.
Proof.
  destruct (el_run_spec und unique h []) as (rs & H1 & H2 & H3).
  destruct (el_edges_spec (map (normal und) (accept unique und [] h))) as [H4 H5].
  exists rs. auto.
Qed.

Theorem C66_find_edge und A u v :
  let l := map (normal und) A in
  let e := el_find und l u v in
  (e_source e, e_target e) = fst (normal und (u, v, 0)) /\
  ((exists x, In x A /\ joins und u v x = true) ->
     exists p, nth_error l (e_bundle e) = Some (e_source e, e_target e, p)) /\
  ((forall x, In x A -> joins und u v x = false) -> e_bundle e = length l).
Proof.
  intros l e. unfold e, el_find. destruct (el_order und u v) as [a b] eqn:EO. cbn [e_source e_target e_bundle].
  pose proof (el_order_normal und u v 0) as EN. rewrite EO in EN. cbn [fst snd] in EN.
  pose proof (existsb_el und u v A) as EX. rewrite EO in EX. cbn [fst snd] in EX. fold l in EX.
  destruct (el_pos_first l a b) as (_ & _ & G1 & G2).
  split; [|split].
  - rewrite <- EN. reflexivity.
  - intros (x & Hx & J). rewrite (proj2 (existsb_exists _ A)) in EX by eauto.
    destruct (G1 EX) as ([[a' b'] p] & H1 & H2). exists p. rewrite H1. unfold el_match in H2. cbn [fst snd] in H2.
    apply andb_prop in H2 as [H2 H3]. apply Nat.eqb_eq in H2, H3. now subst.
  - intro H. apply G2. rewrite EX. apply not_true_is_false. intro E.
    apply existsb_exists in E as (x & Hx & J). rewrite (H x Hx) in J. discriminate.
Qed.

Theorem C66_remove_edge l1 (x : nat * nat * nat) l2 e :
  e_bundle e = length l1 ->
  el_remove (l1 ++ x :: l2) e = Ok (l1 ++ l2).
Proof.
  intro E. unfold el_remove. rewrite E, app_length. cbn [length].
  replace (length l1 + S (length l2) <? length l1) with false by (symmetry; apply Nat.ltb_ge; lia).
  replace (length l1 =? length l1 + S (length l2)) with false by (symmetry; apply Nat.eqb_neq; lia).
  rewrite firstn_app, firstn_all, Nat.sub_diag. cbn [firstn]. rewrite app_nil_r.
  f_equal. f_equal. replace (S (length l1)) with (length l1 + 1) by lia.
  clear E. induction l1; [reflexivity|]. simpl in *. exact IHl1.
Qed.

(** Looking up an edge that is absent and removing the result is undefined. *)
Theorem C66_remove_missing_refuted und A u v :
  (forall x, In x A -> joins und u v x = false) ->
  el_remove (map (normal und) A) (el_find und (map (normal und) A) u v) = UB.
Proof.
  intro H. destruct (C66_find_edge und A u v) as (_ & _ & G). specialize (G H). cbn zeta in G.
  unfold el_remove. rewrite G, Nat.ltb_irrefl, Nat.eqb_refl. reflexivity.
Qed.

Example C66_case :
  el_run true true [] hist =
  ([(0, 1, 10); (2, 2, 12); (2, 4, 14)],
   [({| e_source := 0; e_target := 1; e_bundle := 0 |}, true);
    ({| e_source := 0; e_target := 1; e_bundle := 0 |}, false);
    ({| e_source := 2; e_target := 2; e_bundle := 1 |}, true);
    ({| e_source := 0; e_target := 1; e_bundle := 0 |}, false);
    ({| e_source := 2; e_target := 4; e_bundle := 2 |}, true)]).
Proof. reflexivity. Qed.
Example C66_case_find :
  e_bundle (el_find true [(0, 1, 10); (2, 2, 12); (2, 4, 14)] 4 2) = 2 /\
  e_bundle (el_find true [(0, 1, 10); (2, 2, 12); (2, 4, 14)] 4 1) = 3 /\
  el_remove [(0, 1, 10); (2, 2, 12); (2, 4, 14)] {| e_source := 2; e_target := 2; e_bundle := 1 |}
    = Ok [(0, 1, 10); (2, 4, 14)].
Proof. vm_compute. auto. Qed.

(** ** C67: finding an edge of an adjacency list *)

Theorem C67_find_edge c n0 h e0 g rs u v :
  run c (empty_graph n0) h e0 = Ok (g, rs) -> u < vertex_count g ->
  let A := accept (c_unique c) (is_undirected c) [] h in
  match find (fun x : nat * nat * nat => rq_tgt x =? v) (spec_out (is_undirected c) A u) with
  | Some x => exists e, find_edge c g u v = Ok e /\ e_source e = u /\ e_target e = v /\
                        edge_bundle c g e = Ok (snd x)
  | None => find_edge c g u v = if has_out_vertex c then AssertFail else Ok default_edge
  end.
Proof.
  intros H Lu A. destruct (history c n0 h e0) as (R & rs' & H1 & H2 & H3 & _).
  rewrite H1 in H. injection H as <- <-. unfold stored in Lu. rewrite vertex_count_mk in Lu.
  set (n := needed n0 h) in *. unfold A. rewrite <- H3.
  pose proof (describe_out c n R u Lu) as D.
  rewrite (find_edge_stored c n R u v Lu).
  assert (S : forall e, In e (oe c R u) -> e_source e = u).
  { intros e He. unfold oe in He. apply In_nth_error in He as [k Hk]. rewrite imap_nth in Hk.
    destruct (nth_error (it_out c R u) k); [|discriminate]. injection Hk as <-. reflexivity. }
  revert D S. generalize (spec_out (is_undirected c) (rev R) u). generalize (oe c R u).
  induction l as [|e l IH]; simpl; intros s D S.
  - injection D as <-. reflexivity.
  - apply bind_Ok in D as (y & Hy & D). apply bind_Ok in Hy as (p & Hp & Hy). injection Hy as <-.
    apply bind_Ok in D as (s' & Hs & D). injection D as <-.
    cbn [find]. unfold rq_tgt at 1. cbn [fst snd].
    destruct (e_target e =? v) eqn:E.
    + apply Nat.eqb_eq in E. exists e. auto.
    + apply IH; auto.
Qed.

(** A missing edge, where no target is stored, is answered with an edge that
    compares equal to the first edge of the graph. *)
Theorem C67_missing_edge_refuted :
  exists c g rs first,
    run c (empty_graph 0) [(0, 1, 10); (1, 2, 20)] zero = Ok (g, rs) /\
    nth_error rs 0 = Some (first, true) /\
    spec_out false [(0, 1, 10); (1, 2, 20)] 2 = [] /\
    exists e, find_edge c g 2 0 = Ok e /\ edge_eqb c e first = true.
Proof.
  exists {| c_dir := Directed; c_unique := false; c_sel := SelOne |}.
  eexists _, _, _. vm_compute. repeat split. eexists. split; reflexivity.
Qed.

Example C67_case :
  Forall (fun s =>
    match run {| c_dir := Undirected; c_unique := false; c_sel := s |} (empty_graph 0) hist zero with
    | Ok (g, _) => exists e, find_edge {| c_dir := Undirected; c_unique := false; c_sel := s |} g 2 4 = Ok e
                   /\ edge_bundle {| c_dir := Undirected; c_unique := false; c_sel := s |} g e = Ok 14
    | _ => False end) [SelNone; SelProperty; SelOne; SelTwo].
Proof. repeat (apply Forall_cons; [vm_compute; eexists; split; reflexivity|]). apply Forall_nil. Qed.

Print Assumptions C47_counts.
Print Assumptions C47_out_edges.
Print Assumptions C47_in_edges.
Print Assumptions C47_in_edges_end_points.
Print Assumptions C47_in_edge_bundle_refuted.
Print Assumptions C47_edges.
Print Assumptions C47_edges_no_vertices_refuted.
Print Assumptions C48_no_parallel_edges.
Print Assumptions C48_refused_insertion.
Print Assumptions C48_accepted_insertion.
Print Assumptions C48_refused_handle_refuted.
Print Assumptions C66_edge_list.
Print Assumptions C66_find_edge.
Print Assumptions C66_remove_edge.
Print Assumptions C66_remove_missing_refuted.
Print Assumptions C67_find_edge.
Print Assumptions C67_missing_edge_refuted.
