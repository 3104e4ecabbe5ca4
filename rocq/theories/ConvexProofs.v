(** Point location in convex polygons, polygons made monotone, hulls and orientation. *)
From Coq Require Import ZArith List Bool Lia.
From Verif Require Import Outcome GeoModel HullProofs GeoProofs PolyModel PolyProofs WindProofs.
Import ListNotations.
Local Open Scope Z_scope.

(** ** Covering: left of a chord between its ends, then left of every edge going the same way *)
Lemma cover_strict a b u v q : sbelow a b -> sbelow u v -> below a q -> below q b ->
  0 <= turn u v a -> 0 <= turn u v b -> 0 < turn a b q -> 0 < turn u v q.
Proof.
  intros AB UV AQ QB TA TB TQ.
  assert (AQ' : sbelow a q). { apply below_neq; auto. intros ->. unfold turn in TQ. lia. }
  assert (QB' : sbelow q b). { apply below_neq; auto. intros ->. unfold turn in TQ. lia. }
  assert (S' := sbelow_below _ _ UV). apply below_lex in AQ, QB, S'. apply sbelow_slex in AB, UV, AQ', QB'.
  destruct (Z.le_gt_cases 0 ((px v - px u) * (py b - py a) - (py v - py u) * (px b - px a))) as [D|D];
    [ assert (K := cone_strict2 _ _ _ _ _ _ UV AB AQ) | assert (K := cone_strict _ _ _ _ _ _ QB AB UV) ];
    unfold turn in *; nia.
Qed.
Lemma cover_strict_down a b u v q : sbelow b a -> sbelow v u -> below b q -> below q a ->
  0 <= turn u v a -> 0 <= turn u v b -> 0 < turn a b q -> 0 < turn u v q.
Proof.
  intros AB UV AQ QB TA TB TQ. rewrite <- turn_neg.
  apply (cover_strict (neg a) (neg b)); rewrite ?sbelow_neg, ?below_neg, ?turn_neg; auto.
Qed.
(** Points of a chord. *)
Lemma slab_on_seg a b p : below a p -> below p b -> turn a b p = 0 -> on_seg p a b.
Proof.
  unfold below, on_seg. intros A B T. split; [exact T|]. unfold turn in T.
  destruct (Z.eq_dec (px a) (px b)) as [E|E]; [lia|].
  assert (H : px a <= px p <= px b) by lia. split; [lia|].
  assert (0 < px b - px a) by lia.
  assert (K : (py p - py a) * (px b - px a) = (py b - py a) * (px p - px a)) by lia.
  assert (K2 : (py b - py p) * (px b - px a) = (py b - py a) * (px b - px p)) by lia.
  destruct (Z.le_ge_cases (py a) (py b)).
  - assert (0 <= py p - py a) by nia. assert (0 <= py b - py p) by nia. lia.
  - assert (py p - py a <= 0) by nia. assert (py b - py p <= 0) by nia. lia.
Qed.
Lemma chord_between a b u v p : sbelow a p -> sbelow p b -> turn a b p = 0 ->
  0 <= turn u v a -> 0 <= turn u v b -> 0 < turn u v a \/ 0 < turn u v b -> 0 < turn u v p.
Proof.
  intros AP PB T TA TB TS.
  assert (G : exists al be, 0 < al /\ 0 < be /\ (al + be) * turn u v p = al * turn u v a + be * turn u v b).
  { unfold sbelow in *. destruct (Z.eq_dec (px a) (px b)) as [E|E].
    - exists (py b - py p), (py p - py a). split; [lia|]. split; [lia|].
      assert (px p = px a) by lia. unfold turn. rewrite <- E, H. ring.
    - assert (K : px a < px b) by lia.
      assert (px a <> px p). { intros Q. unfold turn in T. rewrite Q in T. rewrite Z.sub_diag, Z.mul_0_r, Z.sub_0_r in T. nia. }
      assert (px b <> px p). { intros Q. unfold turn in T. nia. }
      exists (px b - px p), (px p - px a). split; [lia|]. split; [lia|].
      assert (L : (px b - px a) * turn u v p = (px b - px p) * turn u v a + (px p - px a) * turn u v b
        + (px v - px u) * turn a b p) by (unfold turn; ring).
      rewrite T in L. replace (px b - px p + (px p - px a)) with (px b - px a) by ring. lia. }
  destruct G as (al & be & A & B & G). nia.
Qed.

(** ** The two chains of a convex polygon *)
Lemma lex_quad a b c d : 0 < turn b c d -> 0 < turn d a b -> 0 < turn c d a -> 0 < turn a b c ->
  sbelow a b -> sbelow c b -> below b d -> False.
Proof.
  intros T1 T2 T3 T4 AB CB BD. destruct (quad a b c d) as (Qy & Qx & Q).
  apply sbelow_slex in AB, CB. apply below_lex in BD.
  assert (L : forall x y, slex x y -> lex x y) by (unfold slex, lex; lia).
  assert (S := slex_comb (turn b c d) (turn d a b) _ _ _ _ T1 (Z.lt_le_incl _ _ T2) (L _ _ CB) AB).
  assert (S2 := slex_comb 1 (turn a b c) _ _ _ _ Z.lt_0_1 (Z.lt_le_incl _ _ T4) BD S).
  unfold slex in S2.
  assert (Zx : 1 * (turn b c d * (px b - px a) + turn d a b * (px b - px c)) + turn a b c * (px d - px b) = 0).
  { replace (turn d a b) with (turn c d a + turn a b c - turn b c d) in * by lia. lia. }
  assert (Zy : 1 * (turn b c d * (py b - py a) + turn d a b * (py b - py c)) + turn a b c * (py d - py b) = 0).
  { replace (turn d a b) with (turn c d a + turn a b c - turn b c d) in * by lia. lia. }
  lia.
Qed.
Lemma lex_linear p : forall l, exists M, forall M' q, M <= M' -> In q l -> sbelow p q -> 0 < M' * (px q - px p) + (py q - py p).
Proof.
  induction l as [|x l [M IH]]; [exists 0; intros ? ? ? []|].
  exists (Z.max M (Z.abs (py x - py p) + 1)). intros M' q L [->|I] S; [|apply IH; auto; lia].
  unfold sbelow in S. destruct S as [S|[S1 S2]]; [nia|]. rewrite S1, Z.sub_diag. lia.
Qed.
Lemma lex_linear_down p : forall l, exists M, forall M' q, M <= M' -> In q l -> sbelow q p -> 0 < M' * (px p - px q) + (py p - py q).
Proof.
  induction l as [|x l [M IH]]; [exists 0; intros ? ? ? []|].
  exists (Z.max M (Z.abs (py x - py p) + 1)). intros M' q L [->|I] S; [|apply IH; auto; lia].
  unfold sbelow in S. destruct S as [S|[S1 S2]]; [nia|]. rewrite S1, Z.sub_diag. lia.
Qed.
Lemma peq_neq p q : peq p q = false -> p <> q.
Proof. intros H ->. assert (peq q q = true) by (now apply peq_spec). congruence. Qed.
Lemma nonnil (l : list pt) : length l <> O -> exists x r, l = x :: r.
Proof. destruct l; [cbn; congruence | eauto]. Qed.
Section Chains.
Context (v0 vr : pt) (lower upper : list pt).
Let poly := v0 :: lower ++ vr :: upper.
Hypothesis CV : convex poly.
Hypothesis LEAST : forall v, In v poly -> below v0 v.
Hypothesis GREATEST : forall v, In v poly -> below v vr.
Lemma convex_nodup : NoDup poly.
Proof.
  apply (NoDup_nth poly (P 0 0)). intros i j Hi Hj E.
  assert (K : forall i j, (i < j)%nat -> (j < length poly)%nat -> nth i poly (P 0 0) = nth j poly (P 0 0) -> False).
  { clear -CV. intros i j L J E. destruct CV as [N H].
    assert (exists k, (k < length poly)%nat /\ k <> i /\ k <> j) as (k & Hk & K1 & K2).
    { destruct (Nat.eq_dec i 0); [destruct (Nat.eq_dec j 1); [exists 2%nat | exists 1%nat] | exists 0%nat]; lia. }
    destruct (Nat.lt_trichotomy k i) as [Q|[Q|Q]]; [|lia|].
    - specialize (H k i j ltac:(lia) ltac:(lia)). unfold at_ in H. rewrite E in H. unfold turn in H. lia.
    - destruct (Nat.lt_trichotomy k j) as [R|[R|R]]; [|lia|].
      + specialize (H i k j ltac:(lia) ltac:(lia)). unfold at_ in H. rewrite E in H. unfold turn in H. lia.
      + specialize (H i j k ltac:(lia) ltac:(lia)). unfold at_ in H. rewrite E in H. unfold turn in H. lia. }
  destruct (Nat.lt_trichotomy i j) as [Q|[Q|Q]]; auto; exfalso; [eapply (K i j) | eapply (K j i)]; eauto.
Qed.
Lemma lower_increasing c d : path_edge (v0 :: lower ++ [vr]) c d -> sbelow c d.
Proof.
  intros (l1 & l2 & E). pose proof convex_nodup as ND.
  destruct (peq c d) eqn:Q.
  { apply peq_spec in Q. subst d. exfalso. unfold poly in ND.
    assert (v0 :: lower ++ vr :: upper = l1 ++ c :: c :: l2 ++ upper) as R.
    { change (v0 :: lower ++ vr :: upper) with ((v0 :: lower) ++ [vr] ++ upper). rewrite app_assoc.
      replace ((v0 :: lower) ++ [vr]) with (l1 ++ c :: c :: l2) by (rewrite <- E; reflexivity).
      rewrite <- app_assoc. reflexivity. }
    rewrite R in ND. apply NoDup_remove_2 in ND. apply ND. rewrite in_app_iff. cbn. auto. }
  assert (Ncd : c <> d) by (intros ->; assert (peq d d = true) by (now apply peq_spec); congruence). clear Q.
  assert (Ic : In c (v0 :: lower ++ [vr])) by (rewrite E, in_app_iff; cbn; auto).
  assert (Id : In d (v0 :: lower ++ [vr])) by (rewrite E, in_app_iff; cbn; auto).
  assert (Sub : forall v, In v (v0 :: lower ++ [vr]) -> In v poly).
  { unfold poly. intros v. cbn. rewrite !in_app_iff. cbn. tauto. }
  destruct l1 as [|x s]; cbn in E; injection E as E1 E.
  { subst c. apply below_neq; auto. }
  subst x. destruct l2 as [|y r _] using rev_ind.
  { replace (s ++ [c; d]) with ((s ++ [c]) ++ [d]) in E by (rewrite <- app_assoc; reflexivity).
    apply app_inj_tail in E as [_ E]. subst d. apply below_neq; auto. }
  replace (s ++ c :: d :: r ++ [y]) with ((s ++ c :: d :: r) ++ [y]) in E by (rewrite <- app_assoc; reflexivity).
  apply app_inj_tail in E as [E1 E2]. subst y.
  assert (F : poly = [] ++ v0 :: s ++ c :: [] ++ d :: (r ++ vr :: upper)).
  { unfold poly. rewrite E1. cbn. rewrite <- app_assoc. reflexivity. }
  assert (T1 : 0 < turn v0 c d) by (eapply convex_triple; [exact CV | exact F]).
  assert (T2 : 0 < turn c d vr).
  { apply (convex_triple poly (v0 :: s) c [] d r vr upper CV). rewrite F. cbn. reflexivity. }
  assert (T3 : 0 < turn v0 d vr).
  { apply (convex_triple poly [] v0 (s ++ [c]) d r vr upper CV). rewrite F. cbn. rewrite <- ?app_assoc. reflexivity. }
  assert (T4 : 0 < turn v0 c vr).
  { apply (convex_triple poly [] v0 s c (d :: r) vr upper CV). rewrite F. cbn. rewrite <- ?app_assoc. reflexivity. }
  destruct (below_total c d) as [B|B]; [now apply below_neq|].
  exfalso. apply (lex_quad v0 c d vr); auto.
  - now rewrite turn_cyc.
  - now rewrite <- turn_cyc.
  - apply below_neq; [apply LEAST; auto|]. intros ->. unfold turn in T1. lia.
  - apply below_neq; auto.
Qed.
Lemma upper_decreasing c d : path_edge (vr :: upper ++ [v0]) c d -> sbelow d c.
Proof.
  intros (l1 & l2 & E). pose proof convex_nodup as ND.
  assert (ND' : NoDup (vr :: upper ++ [v0] ++ lower)).
  { apply (Permutation.Permutation_NoDup (l := poly)); auto. unfold poly.
    change (v0 :: lower ++ vr :: upper) with ((v0 :: lower) ++ (vr :: upper)).
    change (vr :: upper ++ [v0] ++ lower) with ((vr :: upper) ++ (v0 :: lower)). apply Permutation.Permutation_app_comm. }
  destruct (peq c d) eqn:Q.
  { apply peq_spec in Q. subst d. exfalso.
    assert (vr :: upper ++ [v0] ++ lower = l1 ++ c :: c :: l2 ++ lower) as R.
    { change (vr :: upper ++ [v0] ++ lower) with ((vr :: upper) ++ [v0] ++ lower). rewrite app_assoc.
      replace ((vr :: upper) ++ [v0]) with (l1 ++ c :: c :: l2) by (rewrite <- E; reflexivity).
      rewrite <- app_assoc. reflexivity. }
    rewrite R in ND'. apply NoDup_remove_2 in ND'. apply ND'. rewrite in_app_iff. cbn. auto. }
  assert (Ncd : d <> c) by (intros ->; assert (peq c c = true) by (now apply peq_spec); congruence). clear Q.
  assert (Ic : In c (vr :: upper ++ [v0])) by (rewrite E, in_app_iff; cbn; auto).
  assert (Id : In d (vr :: upper ++ [v0])) by (rewrite E, in_app_iff; cbn; auto).
  assert (Sub : forall v, In v (vr :: upper ++ [v0]) -> In v poly).
  { unfold poly. intros v. cbn. rewrite !in_app_iff. cbn. tauto. }
  destruct l1 as [|x s]; cbn in E; injection E as E1 E.
  { subst c. apply below_neq; auto. }
  subst x. destruct l2 as [|y r _] using rev_ind.
  { replace (s ++ [c; d]) with ((s ++ [c]) ++ [d]) in E by (rewrite <- app_assoc; reflexivity).
    apply app_inj_tail in E as [_ E]. subst d. apply below_neq; auto. }
  replace (s ++ c :: d :: r ++ [y]) with ((s ++ c :: d :: r) ++ [y]) in E by (rewrite <- app_assoc; reflexivity).
  apply app_inj_tail in E as [E1 E2]. subst y.
  assert (F : poly = v0 :: lower ++ vr :: s ++ c :: d :: r).
  { unfold poly. rewrite E1. reflexivity. }
  assert (T1 : 0 < turn v0 vr c) by (apply (convex_triple poly [] v0 lower vr s c (d :: r) CV); rewrite F; reflexivity).
  assert (T2 : 0 < turn v0 vr d).
  { apply (convex_triple poly [] v0 lower vr (s ++ [c]) d r CV). rewrite F. cbn. rewrite <- ?app_assoc. reflexivity. }
  assert (T3 : 0 < turn v0 c d).
  { apply (convex_triple poly [] v0 (lower ++ vr :: s) c [] d r CV). rewrite F. cbn. rewrite <- ?app_assoc. reflexivity. }
  assert (T4 : 0 < turn vr c d).
  { apply (convex_triple poly (v0 :: lower) vr s c [] d r CV). rewrite F. reflexivity. }
  destruct (below_total d c) as [B|B]; [now apply below_neq|].
  exfalso. apply (lex_quad c d v0 vr); auto.
  - now rewrite turn_cyc.
  - now rewrite <- turn_cyc.
  - apply below_neq; auto.
  - apply below_neq; [apply LEAST; auto|]. intros ->. unfold turn in T3. lia.
Qed.

Lemma chain_edges u v : poly_edge poly u v <-> path_edge (v0 :: lower ++ [vr]) u v \/ path_edge (vr :: upper ++ [v0]) u v.
Proof.
  unfold poly_edge, closed, poly. cbn [firstn app]. rewrite <- app_assoc. cbn [app].
  change (v0 :: lower ++ vr :: upper ++ [v0]) with ((v0 :: lower) ++ vr :: (upper ++ [v0])). apply path_edge_app.
Qed.
(** *** The searches *)
Lemma lower_bound_le less p : forall l, (lower_bound less l p <= length l)%nat.
Proof. induction l as [|v l IH]; cbn; [lia|]. destruct (less v p); cbn; lia. Qed.
Lemma lower_bound_spec less p d : forall l,
  (forall i, (i < lower_bound less l p)%nat -> less (nth i l d) p = true)
  /\ ((lower_bound less l p < length l)%nat -> less (nth (lower_bound less l p) l d) p = false).
Proof.
  induction l as [|v l IH]; cbn; [split; intros; lia|]. destruct (less v p) eqn:E.
  - destruct IH as [A B]. split; [|intros H; apply B; lia].
    intros [|i] H; [exact E | apply A; lia].
  - split; [intros; lia | auto].
Qed.
Lemma slab_find x0 xe xs p : below x0 p -> below p xe ->
  let k := lower_bound pless xs p in
  let a := nth k (x0 :: xs) (P 0 0) in let b := nth k (xs ++ [xe]) (P 0 0) in
  path_edge (x0 :: xs ++ [xe]) a b /\ below a p /\ below p b.
Proof.
  intros A B k a b. pose proof (lower_bound_le pless p xs) as L. destruct (lower_bound_spec pless p (P 0 0) xs) as [S1 S2].
  fold k in L, S1, S2. split; [|split].
  - assert (E1 : x0 :: xs ++ [xe] = firstn k (x0 :: xs ++ [xe]) ++ a :: b :: skipn (S (S k)) (x0 :: xs ++ [xe])).
    { rewrite <- (firstn_skipn k (x0 :: xs ++ [xe])) at 1. f_equal.
      assert (Q : forall (l : list pt) i, (S i < length l)%nat -> skipn i l = nth i l (P 0 0) :: nth (S i) l (P 0 0) :: skipn (S (S i)) l).
      { clear. intros l i. revert l. induction i as [|i IH]; intros l H; destruct l as [|x [|y l]]; cbn in H; try lia; try reflexivity.
        change (skipn (S i) (x :: y :: l)) with (skipn i (y :: l)). rewrite IH by (cbn; lia). reflexivity. }
      rewrite Q by (cbn; rewrite app_length; cbn; lia).
      assert (Ea : nth k (x0 :: xs ++ [xe]) (P 0 0) = a).
      { unfold a. change (x0 :: xs ++ [xe]) with ((x0 :: xs) ++ [xe]). rewrite app_nth1 by (cbn; lia). reflexivity. }
      rewrite Ea. reflexivity. }
    exists (firstn k (x0 :: xs ++ [xe])), (skipn (S (S k)) (x0 :: xs ++ [xe])). exact E1.
  - unfold a. destruct k as [|k']; [exact A|]. cbn [nth]. apply sbelow_below, pless_true, S1. lia.
  - unfold b. destruct (Nat.eq_dec k (length xs)) as [->|N]; [rewrite nth_middle; exact B|].
    rewrite app_nth1 by lia. apply pless_false, S2. lia.
Qed.
Lemma lower_test_spec p : below v0 p -> below p vr ->
  exists a b, path_edge (v0 :: lower ++ [vr]) a b /\ below a p /\ below p b
  /\ lower_test p poly (S (length lower)) = Z.sgn (turn a b p).
Proof.
  intros A B. destruct (slab_find v0 vr lower p A B) as (E & A' & B'). eexists _, _. split; [exact E|]. split; [exact A'|].
  split; [exact B'|]. pose proof (lower_bound_le pless p lower) as L.
  unfold lower_test, poly. cbn [skipn]. replace (S (length lower) - 1)%nat with (length lower) by lia.
  rewrite firstn_app, Nat.sub_diag, firstn_all. cbn [firstn]. rewrite app_nil_r. rewrite orient3_turn.
  unfold vertex. cbn [Nat.add]. replace (S (lower_bound pless lower p) - 1)%nat with (lower_bound pless lower p) by lia.
  f_equal. f_equal.
  - change (v0 :: lower ++ vr :: upper) with ((v0 :: lower) ++ vr :: upper). rewrite app_nth1 by (cbn; lia). reflexivity.
  - cbn [nth]. change (vr :: upper) with ([vr] ++ upper). rewrite app_assoc, app_nth1 by (rewrite app_length; cbn; lia). reflexivity.
Qed.
Lemma upper_test_spec p : below v0 p -> below p vr ->
  exists a b, path_edge (vr :: upper ++ [v0]) b a /\ below a p /\ below p b
  /\ upper_test p poly (S (length lower)) = Z.sgn (turn b a p).
Proof.
  intros A B. destruct (slab_find v0 vr (rev upper) p A B) as (E & A' & B'). eexists _, _. split.
  { apply path_edge_rev. cbn [rev]. rewrite rev_app_distr. cbn [rev app]. exact E. }
  split; [exact A'|]. split; [exact B'|]. pose proof (lower_bound_le pless p (rev upper)) as L. rewrite rev_length in L.
  unfold upper_test, poly. replace (length (v0 :: lower ++ vr :: upper) - S (length lower) - 1)%nat with (length upper)
    by (cbn; rewrite app_length; cbn; lia).
  assert (R : rev (v0 :: lower ++ vr :: upper) = rev upper ++ vr :: rev lower ++ [v0]).
  { cbn [rev]. rewrite rev_app_distr. cbn [rev]. rewrite <- !app_assoc. reflexivity. }
  rewrite R. rewrite <- (rev_length upper). rewrite firstn_app, Nat.sub_diag, firstn_all. cbn [firstn]. rewrite app_nil_r.
  rewrite orient3_turn. unfold vertex. f_equal. rewrite <- (rev_length upper) in L. f_equal.
  - change (vr :: rev lower ++ [v0]) with ([vr] ++ rev lower ++ [v0]). rewrite app_assoc, app_nth1 by (rewrite app_length; cbn; lia). reflexivity.
  - destruct (lower_bound pless (rev upper) p) as [|u] eqn:U; [reflexivity|]. cbn [nth]. rewrite app_nth1 by lia. reflexivity.
Qed.

(** *** The results *)
Lemma outside_left p u v : poly_edge poly u v -> turn u v p < 0 -> within_simple p poly = Outside.
Proof. intros E T. unfold within_simple. now rewrite (convex_outside poly p u v CV E T). Qed.
Lemma border_on p u v : poly_edge poly u v -> on_seg p u v -> within_simple p poly = Border.
Proof.
  intros E O. unfold within_simple. assert (W : winding_number p poly = Boundary); [|now rewrite W].
  destruct (convex_winding poly p CV) as (_ & _ & W & _). apply W. eauto.
Qed.
Lemma inside_all p : (forall u v, poly_edge poly u v -> 0 < turn u v p) -> within_simple p poly = Inside.
Proof. intros H. unfold within_simple. now rewrite (convex_inside poly p CV H). Qed.
Lemma v0_in : In v0 poly. Proof. left. reflexivity. Qed.
Lemma vr_in : In vr poly. Proof. right. apply in_app_iff. right. left. reflexivity. Qed.
(** Before the least and after the greatest vertex: outside. *)
Lemma beyond p : sbelow p v0 \/ sbelow vr p -> within_simple p poly = Outside.
Proof.
  intros [H|H]; unfold within_simple.
  - destruct (lex_linear p poly) as [M HM]. rewrite (winding_half_plane p poly M 1); [reflexivity|].
    intros q I. rewrite Z.mul_1_l. apply HM; [lia | auto|]. specialize (LEAST q I). unfold sbelow, below in *. lia.
  - destruct (lex_linear_down p poly) as [M HM]. rewrite (winding_half_plane p poly (- M) (-1)); [reflexivity|].
    intros q I. replace (- M * (px q - px p) + -1 * (py q - py p)) with (M * (px p - px q) + (py p - py q)) by ring.
    apply HM; [lia | auto|]. specialize (GREATEST q I). unfold sbelow, below in *. lia.
Qed.
Theorem within_monotone_simple p : within_monotone p poly (S (length lower)) = Ok (within_simple p poly).
Proof.
  assert (N : exists y l, poly = v0 :: y :: l) by (unfold poly; destruct lower; cbn; eauto).
  assert (U : within_monotone p poly (S (length lower)) =
    if pless p v0 || pless (vertex poly (S (length lower))) p then Ok Outside
    else let o := lower_test p poly (S (length lower)) in
         to_inclusion (if o =? o_right then upper_test p poly (S (length lower)) else o)).
  { destruct N as (y & l & N). rewrite N. reflexivity. }
  rewrite U. clear N U.
  assert (V : vertex poly (S (length lower)) = vr) by (unfold vertex, poly; cbn [nth]; apply nth_middle).
  rewrite V. destruct (pless p v0) eqn:P1; [rewrite (beyond p) by (left; now apply pless_true); reflexivity|].
  destruct (pless vr p) eqn:P2; [rewrite (beyond p) by (right; now apply pless_true); reflexivity|]. cbn [orb].
  apply pless_false in P1, P2.
  destruct (lower_test_spec p P1 P2) as (a & b & E & A & B & T). rewrite T.
  assert (PE : poly_edge poly a b) by (apply chain_edges; auto).
  destruct (poly_edge_In poly a b PE) as [Ia Ib].
  assert (X : forall x, (Z.sgn x = 1 /\ 0 < x) \/ (Z.sgn x = 0 /\ x = 0) \/ (Z.sgn x = -1 /\ x < 0)) by (intros; lia).
  destruct (X (turn a b p)) as [[-> H]|[[-> H]|[-> H]]].
  2: { rewrite (border_on p a b); auto. now apply slab_on_seg. }
  2: { rewrite (outside_left p a b); auto. }
  change (1 =? o_right) with true. cbn iota.
  destruct (upper_test_spec p P1 P2) as (c & d & E2 & A2 & B2 & T2). rewrite T2.
  assert (PE2 : poly_edge poly d c) by (apply chain_edges; auto).
  destruct (poly_edge_In poly d c PE2) as [Id Ic].
  destruct (X (turn d c p)) as [[-> H2]|[[-> H2]|[-> H2]]].
  - rewrite (inside_all p); [reflexivity|]. intros u v Euv. apply chain_edges in Euv as [L|U].
    + apply (cover_strict a b); auto; try (now apply lower_increasing);
        apply (convex_left_weak poly); auto; try (apply chain_edges; auto).
    + apply (cover_strict_down d c); auto; try (now apply upper_decreasing);
        apply (convex_left_weak poly); auto; try (apply chain_edges; auto).
  - rewrite (border_on p d c); auto. apply on_seg_sym. apply slab_on_seg; auto. rewrite turn_swap. lia.
  - rewrite (outside_left p d c); auto.
Qed.
Theorem within_convex_simple p : within_convex p poly (S (length lower)) = Ok (within_simple p poly).
Proof.
  assert (N : exists y l, poly = v0 :: y :: l) by (unfold poly; destruct lower; cbn; eauto).
  assert (U : within_convex p poly (S (length lower)) =
    let vr := vertex poly (S (length lower)) in
    if pless p v0 || pless vr p then Ok Outside
    else
      let o := orient3 p vr v0 in
      if o =? o_collinear then
        Ok (if peq p v0 || peq p vr then Border
            else if Nat.eqb (S (length lower)) 1 || Nat.eqb (S (length lower) + 1) (length poly) then Border else Inside)
      else if o =? o_left then to_inclusion (lower_test p poly (S (length lower)))
      else to_inclusion (upper_test p poly (S (length lower)))).
  { destruct N as (y & l & N). rewrite N. reflexivity. }
  rewrite U. clear N U. cbn zeta.
  assert (V : vertex poly (S (length lower)) = vr) by (unfold vertex, poly; cbn [nth]; apply nth_middle).
  rewrite V. destruct (pless p v0) eqn:P1; [rewrite (beyond p) by (left; now apply pless_true); reflexivity|].
  destruct (pless vr p) eqn:P2; [rewrite (beyond p) by (right; now apply pless_true); reflexivity|]. cbn [orb].
  apply pless_false in P1, P2. rewrite orient3_turn.
  assert (NV : v0 <> vr).
  { pose proof convex_nodup as ND. unfold poly in ND. apply NoDup_cons_iff in ND as [ND _]. intros ->. apply ND, in_app_iff. cbn. auto. }
  assert (SV : sbelow v0 vr) by (apply below_neq; auto; apply LEAST, vr_in).
  assert (X : forall x, (Z.sgn x = 1 /\ 0 < x) \/ (Z.sgn x = 0 /\ x = 0) \/ (Z.sgn x = -1 /\ x < 0)) by (intros; lia).
  destruct (X (turn v0 vr p)) as [[-> H]|[[-> H]|[-> H]]]; cbn [Z.eqb o_collinear o_left].
  - change (1 =? o_collinear) with false. change (1 =? o_left) with false. cbn iota.
    destruct (upper_test_spec p P1 P2) as (c & d & E2 & A2 & B2 & T2). rewrite T2.
    assert (PE2 : poly_edge poly d c) by (apply chain_edges; auto).
  destruct (poly_edge_In poly d c PE2) as [Id Ic].
    destruct (X (turn d c p)) as [[-> H2]|[[-> H2]|[-> H2]]].
    + rewrite (inside_all p); [reflexivity|]. intros u v Euv. apply chain_edges in Euv as [L|U].
      * apply (cover_strict v0 vr); auto; try (now apply lower_increasing);
          apply (convex_left_weak poly); auto; try (apply chain_edges; auto); [apply v0_in | apply vr_in].
      * apply (cover_strict_down d c); auto; try (now apply upper_decreasing);
          apply (convex_left_weak poly); auto; try (apply chain_edges; auto).
    + rewrite (border_on p d c); auto. apply on_seg_sym. apply slab_on_seg; auto. rewrite turn_swap. lia.
    + rewrite (outside_left p d c); auto.
  - change (0 =? o_collinear) with true. cbn iota. f_equal.
    assert (Ev0 : exists w, poly_edge poly v0 w) by (apply closed_start; [apply in_app_iff; left; apply v0_in | unfold poly; cbn; lia]).
    assert (Evr : exists w, poly_edge poly vr w) by (apply closed_start; [apply in_app_iff; left; apply vr_in | unfold poly; cbn; lia]).
    destruct (peq p v0) eqn:Q1.
    { apply peq_spec in Q1. subst p. destruct Ev0 as [w Ew]. rewrite (border_on v0 v0 w); auto. apply on_seg_left. }
    destruct (peq p vr) eqn:Q2.
    { apply peq_spec in Q2. subst p. destruct Evr as [w Ew]. rewrite (border_on vr vr w); auto. apply on_seg_left. }
    cbn [orb].
    assert (N1 : v0 <> p) by (intros ->; assert (peq p p = true) by (now apply peq_spec); congruence).
    assert (N2 : p <> vr) by (intros ->; assert (peq vr vr = true) by (now apply peq_spec); congruence).
    destruct (Nat.eqb_spec (S (length lower)) 1) as [R1|R1].
    { cbn [orb]. rewrite (border_on p v0 vr); auto; [|now apply slab_on_seg]. apply chain_edges. left.
      assert (L : lower = []) by (apply length_zero_iff_nil; lia). rewrite L. exists [], []. reflexivity. }
    destruct (Nat.eqb_spec (S (length lower) + 1) (length poly)) as [R2|R2].
    { cbn [orb]. rewrite (border_on p vr v0); auto; [|apply on_seg_sym; now apply slab_on_seg]. apply chain_edges. right.
      unfold poly in R2. cbn in R2. rewrite app_length in R2. cbn in R2.
      assert (L : upper = []) by (apply length_zero_iff_nil; lia). rewrite L. exists [], []. reflexivity. }
    cbn [orb]. symmetry. apply inside_all. intros u v Euv.
    pose proof (convex_left_weak poly u v v0 CV Euv v0_in) as W1. pose proof (convex_left_weak poly u v vr CV Euv vr_in) as W2.
    apply (chord_between v0 vr); auto using below_neq.
    destruct (Z.eq_dec (turn u v v0) 0) as [Z1|Z1]; [|lia]. destruct (Z.eq_dec (turn u v vr) 0) as [Z2|Z2]; [|lia]. exfalso.
    assert (D1 : v0 = u \/ v0 = v).
    { destruct (peq v0 u) eqn:Q; [apply peq_spec in Q; auto|]. destruct (peq v0 v) eqn:Q'; [apply peq_spec in Q'; auto|].
      assert (0 < turn u v v0); [|lia]. apply (convex_left poly); auto using peq_neq, v0_in. }
    assert (D2 : vr = u \/ vr = v).
    { destruct (peq vr u) eqn:Q; [apply peq_spec in Q; auto|]. destruct (peq vr v) eqn:Q'; [apply peq_spec in Q'; auto|].
      assert (0 < turn u v vr); [|lia]. apply (convex_left poly); auto using peq_neq, vr_in. }
    apply chain_edges in Euv as [L|U].
    + pose proof (lower_increasing u v L) as S. destruct (nonnil lower) as (x & lw & NL); [lia|].
      assert (u = v0 /\ v = vr) as [Eu Ev].
      { destruct D1 as [D1|D1], D2 as [D2|D2]; try congruence; auto. exfalso. rewrite <- D1, <- D2 in S. unfold sbelow in *. lia. }
      assert (T : 0 < turn v0 x vr) by (apply (convex_triple poly [] v0 [] x lw vr upper CV); unfold poly; rewrite NL; reflexivity).
      assert (T' : 0 <= turn v0 vr x).
      { rewrite Eu, Ev in L. apply (convex_left_weak poly); auto; [apply chain_edges; auto | unfold poly; rewrite NL; right; left; reflexivity]. }
      rewrite turn_swap2 in T'. lia.
    + pose proof (upper_decreasing u v U) as S. 
      destruct (nonnil upper) as (x & up & NU); [intros K; apply R2; unfold poly; cbn; rewrite app_length; cbn; lia|].
      assert (u = vr /\ v = v0) as [Eu Ev].
      { destruct D1 as [D1|D1], D2 as [D2|D2]; try congruence; auto. exfalso. rewrite <- D1, <- D2 in S. unfold sbelow in *. lia. }
      assert (T : 0 < turn v0 vr x) by (apply (convex_triple poly [] v0 lower vr [] x up CV); unfold poly; rewrite NU; reflexivity).
      assert (T' : 0 <= turn vr v0 x).
      { rewrite Eu, Ev in U. apply (convex_left_weak poly); auto; [apply chain_edges; auto |]. unfold poly. rewrite NU. right. apply in_app_iff. right. right. left. reflexivity. }
      rewrite turn_swap in T'. lia.
  - change (-1 =? o_collinear) with false. change (-1 =? o_left) with true. cbn iota.
    destruct (lower_test_spec p P1 P2) as (a & b & E & A & B & T). rewrite T.
    assert (PE : poly_edge poly a b) by (apply chain_edges; auto).
  destruct (poly_edge_In poly a b PE) as [Ia Ib].
    destruct (X (turn a b p)) as [[-> H2]|[[-> H2]|[-> H2]]].
    + rewrite (inside_all p); [reflexivity|]. intros u v Euv. apply chain_edges in Euv as [L|U].
      * apply (cover_strict a b); auto; try (now apply lower_increasing);
          apply (convex_left_weak poly); auto; try (apply chain_edges; auto).
      * apply (cover_strict_down vr v0); auto; try (now apply upper_decreasing);
          try (apply (convex_left_weak poly); auto; try (apply chain_edges; auto); [apply v0_in || apply vr_in]).
        rewrite turn_swap. lia.
    + rewrite (border_on p a b); auto. now apply slab_on_seg.
    + rewrite (outside_left p a b); auto.
Qed.
End Chains.

(** ** Making a convex polygon monotone *)
Lemma min_index_spec : forall l i best b pre, (length pre = i)%nat -> (best < i)%nat -> nth best pre (P 0 0) = b ->
  (forall q, In q pre -> below b q) ->
  let k := min_index pless l i best b in
  (k < i + length l)%nat /\ forall q, In q (pre ++ l) -> below (nth k (pre ++ l) (P 0 0)) q.
Proof.
  induction l as [|v l IH]; intros i best b pre L B N H k.
  - cbn in *. subst k. rewrite app_nil_r, N. split; [lia | exact H].
  - unfold k. cbn [min_index]. replace (pre ++ v :: l) with ((pre ++ [v]) ++ l) by (rewrite <- app_assoc; reflexivity).
    destruct (pless v b) eqn:E.
    + destruct (IH (S i) i v (pre ++ [v])) as [A C].
      * rewrite app_length. cbn. lia.
      * lia.
      * rewrite <- L. apply nth_middle.
      * intros q Q. apply in_app_iff in Q as [Q|[<-|[]]]; [|apply below_refl]. apply pless_true, sbelow_below in E.
        eapply below_trans; eauto.
      * split; [cbn [length]; lia | exact C].
    + destruct (IH (S i) best b (pre ++ [v])) as [A C].
      * rewrite app_length. cbn. lia.
      * lia.
      * rewrite app_nth1 by lia. exact N.
      * intros q Q. apply in_app_iff in Q as [Q|[<-|[]]]; [auto|]. now apply pless_false.
      * split; [cbn [length]; lia | exact C].
Qed.
Lemma max_index_spec : forall l i best b pre, (length pre = i)%nat -> (best < i)%nat -> nth best pre (P 0 0) = b ->
  (forall q, In q pre -> below q b) ->
  let k := max_index pless l i best b in
  (k < i + length l)%nat /\ forall q, In q (pre ++ l) -> below q (nth k (pre ++ l) (P 0 0)).
Proof.
  induction l as [|v l IH]; intros i best b pre L B N H k.
  - cbn in *. subst k. rewrite app_nil_r, N. split; [lia | exact H].
  - unfold k. cbn [max_index]. replace (pre ++ v :: l) with ((pre ++ [v]) ++ l) by (rewrite <- app_assoc; reflexivity).
    destruct (pless v b) eqn:E.
    + destruct (IH (S i) best b (pre ++ [v])) as [A C].
      * rewrite app_length. cbn. lia.
      * lia.
      * rewrite app_nth1 by lia. exact N.
      * intros q Q. apply in_app_iff in Q as [Q|[<-|[]]]; [auto|]. now apply sbelow_below, pless_true.
      * split; [cbn [length]; lia | exact C].
    + destruct (IH (S i) i v (pre ++ [v])) as [A C].
      * rewrite app_length. cbn. lia.
      * lia.
      * rewrite <- L. apply nth_middle.
      * intros q Q. apply in_app_iff in Q as [Q|[<-|[]]]; [|apply below_refl]. apply pless_false in E.
        eapply below_trans; eauto.
      * split; [cbn [length]; lia | exact C].
Qed.
Lemma rotated_nth (l : list pt) m i d : (m <= length l)%nat -> (i < length l)%nat ->
  nth i (skipn m l ++ firstn m l) d = nth (if (m + i <? length l)%nat then m + i else m + i - length l) l d.
Proof.
  intros M I. destruct (Nat.ltb_spec (m + i) (length l)) as [H|H].
  - rewrite app_nth1 by (rewrite skipn_length; lia). 
    transitivity (nth (m + i) (firstn m l ++ skipn m l) d); [|now rewrite firstn_skipn].
    rewrite app_nth2 by (rewrite firstn_length; lia). f_equal. rewrite firstn_length. lia.
  - rewrite app_nth2 by (rewrite skipn_length; lia). rewrite skipn_length. 
    transitivity (nth (m + i - length l) (firstn m l ++ skipn m l) d); [|now rewrite firstn_skipn].
    rewrite app_nth1 by (rewrite firstn_length; lia). f_equal. lia.
Qed.
Lemma rotated_In (l : list pt) m q : In q (skipn m l ++ firstn m l) <-> In q l.
Proof.
  assert (H : In q (firstn m l ++ skipn m l) <-> In q l) by now rewrite firstn_skipn. rewrite in_app_iff in *. tauto.
Qed.
(** The polygon begins at its least vertex and the index is that of its greatest one. *)
Theorem to_monotone_spec poly : (1 <= length poly)%nat ->
  exists l1 l2 r, poly = l1 ++ l2 /\ to_monotone poly = (l2 ++ l1, Z.of_nat r) /\ (r < length poly)%nat
  /\ (forall q, In q poly -> below (hd (P 0 0) (l2 ++ l1)) q) /\ (forall q, In q poly -> below q (nth r (l2 ++ l1) (P 0 0))).
Proof.
  intros L. destruct poly as [|v l]; [cbn in L; lia|]. unfold to_monotone.
  destruct (min_index_spec l 1 0 v [v]) as [A1 A2]; auto; [intros q [<-|[]]; apply below_refl|].
  destruct (max_index_spec l 1 0 v [v]) as [B1 B2]; auto; [intros q [<-|[]]; apply below_refl|].
  set (mn := min_index pless l 1 0 v) in *. set (mx := max_index pless l 1 0 v) in *.
  change ([v] ++ l) with (v :: l) in *. set (poly := v :: l) in *.
  assert (Len : length poly = S (length l)) by reflexivity.
  exists (firstn mn poly), (skipn mn poly), (if (mx <? mn)%nat then mx + length poly - mn else mx - mn)%nat.
  split; [now rewrite firstn_skipn|]. split; [|split].
  - f_equal. destruct (Nat.ltb_spec mx mn) as [H|H]; destruct (Z.ltb_spec (Z.of_nat mx - Z.of_nat mn) 0); lia.
  - destruct (Nat.ltb_spec mx mn); lia.
  - assert (E0 : forall m : list pt, hd (P 0 0) m = nth 0 m (P 0 0)) by (intros [|? ?]; reflexivity).
    split.
    + rewrite E0, rotated_nth by lia. rewrite Nat.add_0_r. destruct (Nat.ltb_spec mn (length poly)); [exact A2 | lia].
    + destruct (Nat.ltb_spec mx mn) as [H|H]; rewrite rotated_nth by lia.
      * destruct (Nat.ltb_spec (mn + (mx + length poly - mn)) (length poly)); [lia|].
        replace (mn + (mx + length poly - mn) - length poly)%nat with mx by lia. exact B2.
      * destruct (Nat.ltb_spec (mn + (mx - mn)) (length poly)); [|lia].
        replace (mn + (mx - mn))%nat with mx by lia. exact B2.
Qed.
Lemma within_simple_rotate p l1 l2 : within_simple p (l1 ++ l2) = within_simple p (l2 ++ l1).
Proof. unfold within_simple. now rewrite winding_rotate. Qed.
Theorem located poly p m r : convex poly -> to_monotone poly = (m, r) ->
  within_convex p m (Z.to_nat r) = Ok (within_simple p poly)
  /\ within_monotone p m (Z.to_nat r) = Ok (within_simple p poly).
Proof.
  intros C E. destruct (to_monotone_spec poly) as (l1 & l2 & k & P1 & P2 & K & Mn & Mx); [destruct C; lia|].
  rewrite P2 in E. injection E as <- <-. rewrite Nat2Z.id.
  assert (C' : convex (l2 ++ l1)) by (apply convex_rotate; now rewrite <- P1).
  assert (Ins : forall q, In q (l2 ++ l1) <-> In q poly) by (intros q; rewrite P1, !in_app_iff; tauto).
  assert (LL : length (l2 ++ l1) = length poly) by (rewrite P1, !app_length; lia).
  rewrite P1, within_simple_rotate.
  destruct (l2 ++ l1) as [|v0 rest] eqn:EQ; [destruct C' as [Q _]; cbn in Q; lia|].
  destruct k as [|k].
  { exfalso. cbn in Mn, Mx. destruct C' as [Q T]. destruct rest as [|y rest]; [cbn in Q; lia|].
    assert (Y : In y poly) by (apply Ins; right; left; reflexivity).
    assert (v0 = y) by (apply below_anti; auto). subst y.
    specialize (T 0 1 2)%nat. unfold at_, turn in T. cbn [nth] in T. cbn in Q. specialize (T ltac:(lia) Q). lia. }
  cbn [nth] in Mx. cbn [hd] in Mn.
  assert (KL : (k < length rest)%nat) by (cbn in LL; lia).
  destruct (nth_split rest (P 0 0) KL) as (lower & upper & S & SL).
  set (vr := nth k rest (P 0 0)) in *. clearbody vr. subst rest. rewrite <- SL.
  split; [apply within_convex_simple | apply within_monotone_simple]; auto; intros v I; apply Ins in I; auto.
Qed.

(** ** Hulls are convex *)
Definition nx (l : list pt) (i : nat) : pt := at_ l ((i + 1) mod length l).
Section Hull.
Context (h : list pt).
Let n := length h.
Hypothesis N3 : (3 <= n)%nat.
Hypothesis ND : NoDup h.
Hypothesis LEFT : forall i k, (i < n)%nat -> (k < n)%nat -> 0 <= turn (at_ h i) (nx h i) (at_ h k).
Hypothesis TURN : forall i, (i < n)%nat -> 0 < turn (at_ h i) (nx h i) (nx h ((i + 1) mod n)).
Lemma hull_eq i k : (i < n)%nat -> (k < n)%nat -> at_ h i = at_ h k -> i = k.
Proof. intros I K E. unfold n in *. apply (proj1 (NoDup_nth h (P 0 0)) ND); auto. Qed.
Lemma nx_in i : (i < n)%nat -> exists j, (j < n)%nat /\ nx h i = at_ h j /\ j = ((i + 1) mod n)%nat.
Proof. intros I. exists ((i + 1) mod n)%nat. split; [apply Nat.mod_upper_bound; lia|]. split; reflexivity. Qed.
Lemma mod_cases i : (i < n)%nat -> ((i + 1) mod n = if (i + 1 =? n) then 0 else i + 1)%nat.
Proof.
  intros I. destruct (Nat.eqb_spec (i + 1) n) as [->|H]; [apply Nat.mod_same; lia | apply Nat.mod_small; lia].
Qed.
Definition pre (k : nat) : nat := (if (k =? 0)%nat then n - 1 else k - 1)%nat.
Lemma pre_nx k : (k < n)%nat -> (pre k < n)%nat /\ ((pre k + 1) mod n = k)%nat.
Proof.
  intros K. unfold pre. destruct (Nat.eqb_spec k 0) as [->|H].
  - split; [lia|]. replace (n - 1 + 1)%nat with n by lia. apply Nat.mod_same. lia.
  - split; [lia|]. replace (k - 1 + 1)%nat with k by lia. apply Nat.mod_small. lia.
Qed.
(** No other vertex is on the line of an edge. *)
Lemma hull_strict i k : (i < n)%nat -> (k < n)%nat -> k <> i -> k <> ((i + 1) mod n)%nat ->
  0 < turn (at_ h i) (nx h i) (at_ h k).
Proof.
  intros I K K1 K2. pose proof (LEFT i k I K) as L. destruct (Z.eq_dec (turn (at_ h i) (nx h i) (at_ h k)) 0) as [E|E]; [exfalso|lia].
  set (a := at_ h i) in *. set (b := nx h i) in *. set (p := at_ h k) in *.
  destruct (nx_in i I) as (i1 & I1 & Eb & Ei1). destruct (pre_nx i I) as [Pi Ppi].
  assert (O : on_seg p a b).
  { apply (between_edges (at_ h (pre i)) a b (nx h i1)); auto.
    - pose proof (TURN (pre i) Pi) as T. rewrite Ppi in T. unfold nx at 1 in T. fold n in T. rewrite Ppi in T. exact T.
    - pose proof (TURN i I) as T. rewrite <- Ei1 in T. exact T.
    - pose proof (LEFT (pre i) k Pi K) as T. unfold nx in T. fold n in T. rewrite Ppi in T. exact T.
    - pose proof (LEFT i1 k I1 K) as T. rewrite <- Eb in T. exact T. }
  assert (Npa : p <> a) by (intros Q; apply K1; now apply hull_eq in Q).
  assert (Npb : p <> b) by (intros Q; unfold b in Q; rewrite Eb in Q; apply K2; apply hull_eq in Q; auto; congruence).
  (* the edges at p see a and b on one side *)
  destruct (pre_nx k K) as [Pk Ppk].
  set (q := at_ h (pre k)). set (r := nx h k).
  assert (Tq : 0 < turn q p r).
  { pose proof (TURN (pre k) Pk) as T. rewrite Ppk in T. unfold nx at 1 in T. fold n in T. rewrite Ppk in T. exact T. }
  assert (Aq : 0 <= turn q p a /\ 0 <= turn q p b).
  { pose proof (LEFT (pre k) i Pk I) as T1. pose proof (LEFT (pre k) i1 Pk I1) as T2. unfold nx in T1, T2. fold n in T1, T2.
    rewrite Ppk in *. rewrite <- Eb in T2. auto. }
  assert (Ar : 0 <= turn p r a /\ 0 <= turn p r b).
  { pose proof (LEFT k i K I) as T1. pose proof (LEFT k i1 K I1) as T2. rewrite <- Eb in T2. auto. }
  assert (G : exists al be, 0 < al /\ 0 < be /\ al * (px a - px p) + be * (px b - px p) = 0 /\ al * (py a - py p) + be * (py b - py p) = 0).
  { destruct O as (T & X & Y). unfold turn in T. destruct (Z.eq_dec (px a) (px b)) as [Ex|Ex].
    - assert (px p = px a) by lia.
      assert (py p <> py a) by (intros Q; apply Npa, pt_eq; auto).
      assert (py p <> py b) by (intros Q; apply Npb, pt_eq; auto; lia).
      destruct (Z.le_ge_cases (py a) (py b)).
      + exists (py b - py p), (py p - py a). repeat split; try lia; rewrite <- Ex, H; ring.
      + exists (py p - py b), (py a - py p). repeat split; try lia; rewrite <- Ex, H; ring.
    - assert (px p <> px a). { intros Q. rewrite Q in T. rewrite Z.sub_diag, Z.mul_0_r, Z.sub_0_r in T. apply Npa, pt_eq; auto. nia. }
      assert (px p <> px b). { intros Q. rewrite Q in T. apply Npb, pt_eq; auto. nia. }
      destruct (Z.le_ge_cases (px a) (px b)).
      + exists (px b - px p), (px p - px a). repeat split; try lia; ring.
      + exists (px p - px b), (px a - px p). repeat split; try lia; ring. }
  destruct G as (al & be & Al & Be & Gx & Gy).
  assert (Z1 : al * turn q p a + be * turn q p b = 0).
  { replace (al * turn q p a + be * turn q p b) with
      ((px p - px q) * (al * (py a - py p) + be * (py b - py p)) - (py p - py q) * (al * (px a - px p) + be * (px b - px p)))
      by (unfold turn; ring). rewrite Gx, Gy. ring. }
  assert (Z2 : al * turn p r a + be * turn p r b = 0).
  { replace (al * turn p r a + be * turn p r b) with
      ((px r - px p) * (al * (py a - py p) + be * (py b - py p)) - (py r - py p) * (al * (px a - px p) + be * (px b - px p)))
      by (unfold turn; ring). rewrite Gx, Gy. ring. }
  assert (Q0 : turn q p a = 0) by nia. assert (R0 : turn p r a = 0) by nia.
  (* q, p, r on the line through p and a *)
  assert (F1 : (px a - px p) * turn q p r = 0).
  { replace ((px a - px p) * turn q p r) with ((px r - px p) * turn q p a - (px p - px q) * turn p r a) by (unfold turn; ring).
    rewrite Q0, R0. ring. }
  assert (F2 : (py a - py p) * turn q p r = 0).
  { replace ((py a - py p) * turn q p r) with ((py r - py p) * turn q p a - (py p - py q) * turn p r a) by (unfold turn; ring).
    rewrite Q0, R0. ring. }
  apply Npa, pt_eq; nia.
Qed.
Lemma hull_convex : convex h.
Proof.
  split; [exact N3|]. fold n. intros i j k I K.
  assert (G : forall m, (j + S m < n)%nat -> 0 < turn (at_ h i) (at_ h j) (at_ h (j + S m))).
  { induction m as [|m IH]; intros M.
    - pose proof (hull_strict j i ltac:(lia) ltac:(lia) ltac:(lia)) as HS. unfold nx in HS. fold n in HS.
      rewrite Nat.mod_small in HS by lia. rewrite turn_cyc. apply HS. lia.
    - specialize (IH ltac:(lia)). set (a := at_ h i) in *. set (u := at_ h j) in *.
      set (v := at_ h (j + S m)) in *. set (w := at_ h (j + S (S m))). set (u1 := at_ h (i + 1)).
      assert (VW : 0 < turn a v w).
      { pose proof (hull_strict (j + S m) i ltac:(lia) ltac:(lia) ltac:(lia)) as HS. unfold nx in HS. fold n in HS.
        rewrite Nat.mod_small in HS by lia. replace (j + S m + 1)%nat with (j + S (S m))%nat in HS by lia.
        rewrite turn_cyc. apply HS. lia. }
      assert (E1 : forall t, (i + 1 < t)%nat -> (t < n)%nat -> 0 < turn a u1 (at_ h t)).
      { intros t T1 T2. pose proof (hull_strict i t ltac:(lia) ltac:(lia) ltac:(lia)) as HS. unfold nx in HS. fold n in HS.
        rewrite Nat.mod_small in HS by lia. apply HS. lia. }
      assert (U1V : 0 < turn a u1 v) by (apply E1; lia). assert (U1W : 0 < turn a u1 w) by (apply E1; lia).
      assert (U1U : 0 <= turn a u1 u).
      { destruct (Nat.eq_dec j (i + 1)) as [->|Nj]; [unfold turn, u, u1; lia | apply Z.lt_le_incl, E1; lia]. }
      assert (Id : turn a u w * turn a u1 v = turn a u v * turn a u1 w + turn a v w * turn a u1 u) by (unfold turn; ring).
      nia. }
  replace k with (j + S (k - j - 1))%nat by lia. apply G. lia.
Qed.
End Hull.
Theorem convex_hull_convex pts h : (exists p q r, In p pts /\ In q pts /\ In r pts /\ turn p q r <> 0) ->
  convex_hull pts = Ok h -> convex h.
Proof.
  intros NC E. destruct (hull_main pts NC) as (h' & E' & L & I & N & _ & C & T).
  assert (h' = h) by congruence. subst h'. apply hull_convex; auto.
  - intros i k Hi Hk. apply C; auto. apply I, nth_In. exact Hk.
  - intros i Hi. unfold nx, at_. specialize (T i Hi).
    replace (((i + 1) mod length h + 1) mod length h)%nat with ((i + 2) mod length h)%nat; [exact T|].
    rewrite Nat.add_mod_idemp_l by lia. f_equal. lia.
Qed.
