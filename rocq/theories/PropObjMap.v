(** C143: property maps of members and elements of objects in memory. *)
From Coq Require Import ZArith List Bool Lia.
From Verif Require Import Outcome ObjMapModel ObjMapProofs.
Import ListNotations.
Local Open Scope Z_scope.
Local Arguments load : simpl never.
Local Arguments assign : simpl never.

(** get gives a reference to the named part and changes nothing; it succeeds exactly if
    there is such a part. *)
Theorem C143_get : forall m k r s, leads m k r ->
  (forall x, load s r = Ok x -> mget s m k = Ok (s, Ref r)) /\
  (forall s' a, mget s m k = Ok (s', a) -> s' = s /\ a = Ref r /\ exists x, load s r = Ok x).
Proof. intros m k r s L. split; intros; [eapply get_place; eauto|eapply get_place_only; eauto]. Qed.
Print Assumptions C143_get.

(** put changes the named part and no other; get sees the new value. *)
Theorem C143_put : forall m k r s x v, leads m k r -> load s r = Ok x ->
  exists s', mput s m k v = Ok s' /\ length s' = length s /\
    mget s' m k = Ok (s', Ref r) /\ load s' r = Ok v /\
    (forall r', apart r r' -> load s' r' = load s r') /\
    (forall a c i p fs, r = (a, c ++ i :: p) -> load s (a, c) = Ok (Rec fs) ->
       exists fs', load s' (a, c) = Ok (Rec fs') /\ length fs' = length fs).
Proof.
  intros m k r s x v H L. destruct (assign_ok s r x v L) as [s' A]. exists s'.
  split; [rewrite (put_place _ _ _ _ v H _ L); exact A|].
  pose proof (load_assign_same _ _ _ _ A) as L'.
  split; [apply assign_cell in A as (o & o' & _ & _ & ->); apply set_cell_length|].
  split; [eapply get_place; eauto|]. split; [exact L'|].
  split; [intros r' D; exact (load_assign_apart _ _ _ _ _ A D)|].
  intros a c i p fs -> F. exact (assign_shape _ _ _ _ _ _ _ _ A F).
Qed.
Print Assumptions C143_put.

(** Putting what is there changes nothing; of two values put for a key the last one stays. *)
Theorem C143_put_laws : forall m k r s x, leads m k r -> load s r = Ok x ->
  mput s m k x = Ok s /\
  forall v w s', mput s m k v = Ok s' -> mput s' m k w = mput s m k w.
Proof.
  intros m k r s x H L. split; [rewrite (put_place _ _ _ _ _ H _ L); now apply assign_load|].
  intros v w s' P. rewrite (put_place _ _ _ _ _ H _ L) in P. pose proof (load_assign_same _ _ _ _ P) as L'.
  rewrite (put_place _ _ _ _ _ H _ L'), (put_place _ _ _ _ _ H _ L). eapply assign_assign; eauto.
Qed.
Print Assumptions C143_put_laws.

(** A composite of maps of members, nested in any way, is the map of the member of the member. *)
Theorem C143_members : forall m q, member_chain m q -> forall a p, leads m (Ref (a, p)) (a, p ++ q).
Proof. exact chain_leads. Qed.
Print Assumptions C143_members.

(** Members of the elements of a vector: different elements, and different members of one element,
    do not influence each other. *)
Theorem C143_independent : forall a p m m' q q' k k' s x y v,
  member_chain m q -> member_chain m' q' -> 0 <= k -> 0 <= k' ->
  k <> k' \/ (exists c i j t t', i <> j /\ q = c ++ i :: t /\ q' = c ++ j :: t') ->
  load s (a, p ++ Z.to_nat k :: q) = Ok x -> load s (a, p ++ Z.to_nat k' :: q') = Ok y ->
  exists s' r r', mput s (Comp (Cont (a, p)) m) (Val (Leaf k)) v = Ok s' /\
    mget s' (Comp (Cont (a, p)) m) (Val (Leaf k)) = Ok (s', Ref r) /\ load s' r = Ok v /\
    mget s' (Comp (Cont (a, p)) m') (Val (Leaf k')) = Ok (s', Ref r') /\ load s' r' = Ok y.
Proof.
  intros a p m m' q q' k k' s x y v C C' K K' D X Y.
  assert (P : leads (Comp (Cont (a, p)) m) (Val (Leaf k)) (a, p ++ Z.to_nat k :: q)).
  { econstructor; [now constructor|]. replace (p ++ Z.to_nat k :: q) with ((p ++ [Z.to_nat k]) ++ q) by now rewrite <- app_assoc. now apply chain_leads. }
  assert (P' : leads (Comp (Cont (a, p)) m') (Val (Leaf k')) (a, p ++ Z.to_nat k' :: q')).
  { econstructor; [now constructor|]. replace (p ++ Z.to_nat k' :: q') with ((p ++ [Z.to_nat k']) ++ q') by now rewrite <- app_assoc. now apply chain_leads. }
  destruct (C143_put _ _ _ _ _ v P X) as (s' & E & _ & G & L & F & _).
  exists s', (a, p ++ Z.to_nat k :: q), (a, p ++ Z.to_nat k' :: q'). split; [exact E|]. split; [exact G|]. split; [exact L|].
  assert (L' : load s' (a, p ++ Z.to_nat k' :: q') = Ok y).
  { rewrite F; [exact Y|]. right. cbn [snd]. destruct (Z.eq_dec k k') as [<-|N].
    - destruct D as [D|(c & i & j & t & t' & D & -> & ->)]; [contradiction|].
      exists (p ++ Z.to_nat k :: c), i, j, t, t'. rewrite <- !app_assoc. auto.
    - exists p, (Z.to_nat k), (Z.to_nat k'), q, q'. split; [lia|auto]. }
  split; [eapply get_place; eauto|exact L'].
Qed.
Print Assumptions C143_independent.

(** Composition is associative, unless the first map returns an object and the second one takes a reference. *)
Theorem C143_associative : forall m1 m2 m3 s key,
  by_reference m2 = false \/ (forall s' o, mget s m1 key <> Ok (s', Val o)) ->
  mget s (Comp (Comp m1 m2) m3) key = mget s (Comp m1 (Comp m2 m3)) key /\
  forall v, writable m3 = true -> mput s (Comp (Comp m1 m2) m3) key v = mput s (Comp m1 (Comp m2 m3)) key v.
Proof.
  intros m1 m2 m3 s key H. split.
  - cbn. destruct (mget s m1 key) as [[s1 [o|r]]| | | |] eqn:G; try reflexivity; cbn.
    destruct H as [->|H]; [reflexivity|]. now specialize (H s1 o).
  - intros v W. cbn. rewrite W. cbn. destruct (mget s m1 key) as [[s1 [o|r]]| | | |] eqn:G; try reflexivity; cbn.
    destruct H as [->|H]; [reflexivity|]. now specialize (H s1 o).
Qed.
Print Assumptions C143_associative.

(** The first map returns an object, the second one gives a reference to a member of it: the object is gone
    when get returns. *)
Lemma set_cell_app s c x y : set_cell (s ++ [x]) (length s) y = s ++ [y] /\ (c = length s -> nth_error (s ++ [y]) c = Some y).
Proof. split; [induction s; cbn; congruence|]. intros ->. rewrite nth_error_app2, Nat.sub_diag; auto. Qed.
Lemma chain_by_reference m q : member_chain m q -> by_reference m = true.
Proof. intros H. exact (proj1 (leads_ref _ _ _ (chain_leads _ _ H 0%nat []) _ _ eq_refl)). Qed.
Theorem C143_value_refuted : forall m1 m q s key s1 o, mget s m1 key = Ok (s1, Val o) -> member_chain m q ->
  forall s2 a, mget s (Comp m1 m) key = Ok (s2, a) -> exists r, a = Ref r /\ load s2 r = UB.
Proof.
  intros m1 m q s key s1 o G C s2 a E. cbn in E. rewrite G in E. cbn in E. rewrite (chain_by_reference _ _ C) in E.
  destruct (mget (s1 ++ [Some o]) m (Ref (length s1, []))) as [[s' r]| | | |] eqn:G2; try discriminate. cbn in E.
  injection E as <- <-. destruct (get_place_only _ _ _ _ _ _ (chain_leads _ _ C (length s1) []) G2) as (-> & -> & _).
  eexists. split; [reflexivity|]. rewrite (proj1 (set_cell_app s1 0 _ _)). unfold load. cbn [fst]. now rewrite (proj2 (set_cell_app s1 (length s1) None None) eq_refl).
Qed.
Print Assumptions C143_value_refuted.
(** If the member is used by a further map within the composite, the value is right and no object changes. *)
Theorem C143_value_inside : forall m1 m q f s key o x, mget s m1 key = Ok (s, Val o) -> member_chain m q -> at_path o q = Some x ->
  exists s', mget s (Comp m1 (Comp m (Fn f))) key = Ok (s', Val (f x)) /\ forall r y, load s r = Ok y -> load s' r = Ok y.
Proof.
  intros m1 m q f s key o x G C A. exists (s ++ [None]). split.
  - cbn. rewrite G. cbn. rewrite (chain_by_reference _ _ C).
    assert (L : load (s ++ [Some o]) (length s, [] ++ q) = Ok x).
    { unfold load. cbn [fst snd app]. rewrite (proj2 (set_cell_app s (length s) None (Some o)) eq_refl), A. reflexivity. }
    rewrite (get_place _ _ _ _ _ (chain_leads _ _ C _ _) L). cbn in *. rewrite L. cbn. now rewrite (proj1 (set_cell_app s 0 _ _)).
  - intros r y L. apply load_cell in L as (o' & N & B). apply load_cell. exists o'. split; [|exact B].
    rewrite nth_error_app1; [exact N|]. apply nth_error_Some. congruence.
Qed.
Print Assumptions C143_value_inside.

(** Iteration: every key once, in order, with a reference to the member of its element. *)
Lemma range_from s a p m q : member_chain m q -> forall n i,
  (forall j, (i <= j < i + n)%nat -> exists x, load s (a, p ++ j :: q) = Ok x) ->
  mrange_from s (a, p) m n i = Ok (map (fun j => (Z.of_nat j, Ref (a, p ++ j :: q))) (seq i n)).
Proof.
  intros C n. induction n as [|n IH]; intros i H; cbn; [reflexivity|].
  destruct (H i ltac:(lia)) as [x L]. replace (p ++ i :: q) with ((p ++ [i]) ++ q) in * by now rewrite <- app_assoc.
  rewrite (get_place _ _ _ _ _ (chain_leads _ _ C _ _) L). cbn. rewrite IH by (intros j J; apply H; lia). reflexivity.
Qed.
Theorem C143_iteration : forall s a p fs m q, member_chain m q -> load s (a, p) = Ok (Rec fs) ->
  (forall e, In e fs -> exists x, at_path e q = Some x) ->
  mrange s (a, p) m = Ok (map (fun j => (Z.of_nat j, Ref (a, p ++ j :: q))) (seq 0 (length fs))).
Proof.
  intros s a p fs m q C L H. unfold mrange. rewrite L. cbn. apply range_from; [exact C|]. intros j J.
  destruct (nth_error fs j) as [e|] eqn:N; [|apply nth_error_None in N; lia].
  destruct (H e (nth_error_In _ _ N)) as [x A]. exists x. eapply load_outer; [exact L|]. cbn. now rewrite N.
Qed.
Print Assumptions C143_iteration.

(** A loop over the pairs that assigns to each reference changes this member of every element once, and nothing
    else. *)
Lemma transform_from a p q f : forall n i s,
  (forall j, (i <= j < i + n)%nat -> exists x, load s (a, p ++ j :: q) = Ok x) ->
  exists s', transform_all s (map (fun j => (Z.of_nat j, Ref (a, p ++ j :: q))) (seq i n)) f = Ok s' /\
    (forall j x, (i <= j < i + n)%nat -> load s (a, p ++ j :: q) = Ok x -> load s' (a, p ++ j :: q) = Ok (f x)) /\
    (forall r, (forall j, (i <= j < i + n)%nat -> apart (a, p ++ j :: q) r) -> load s' r = load s r).
Proof.
  induction n as [|n IH]; intros i s H.
  - exists s. split; [reflexivity|]. split; [intros; lia|reflexivity].
  - destruct (H i ltac:(lia)) as [x L]. destruct (assign_ok _ _ _ (f x) L) as [s1 A].
    assert (F : forall j, (S i <= j < S i + n)%nat -> load s1 (a, p ++ j :: q) = load s (a, p ++ j :: q)).
    { intros j J. apply (load_assign_apart _ _ _ _ _ A). right. exists p, i, j, q, q. split; [lia|auto]. }
    destruct (IH (S i) s1) as (s' & E & V & U). { intros j J. rewrite F by exact J. apply H. lia. }
    exists s'. split; [cbn; rewrite L; cbn; rewrite A; exact E|]. split.
    + intros j y J Y. destruct (Nat.eq_dec j i) as [->|N].
      * rewrite U; [rewrite (load_assign_same _ _ _ _ A); congruence|]. intros k K. right. exists p, k, i, q, q. split; [lia|auto].
      * apply V; [lia|]. rewrite F by lia. exact Y.
    + intros r R. rewrite U by (intros j J; apply R; lia). apply (load_assign_apart _ _ _ _ _ A). apply R. lia.
Qed.
Theorem C143_transform : forall s a p fs m q f, member_chain m q -> load s (a, p) = Ok (Rec fs) ->
  (forall e, In e fs -> exists x, at_path e q = Some x) ->
  exists l s', mrange s (a, p) m = Ok l /\ transform_all s l f = Ok s' /\
    (forall j x, (j < length fs)%nat -> load s (a, p ++ j :: q) = Ok x -> load s' (a, p ++ j :: q) = Ok (f x)) /\
    (forall r, (forall j, (j < length fs)%nat -> apart (a, p ++ j :: q) r) -> load s' r = load s r).
Proof.
  intros s a p fs m q f C L H. eexists. rewrite (C143_iteration _ _ _ _ _ _ C L H).
  destruct (transform_from a p q f (length fs) 0 s) as (s' & E & V & U).
  { intros j J. destruct (nth_error fs j) as [e|] eqn:N; [|apply nth_error_None in N; lia].
    destruct (H e (nth_error_In _ _ N)) as [x A]. exists x. eapply load_outer; [exact L|]. cbn. now rewrite N. }
  exists s'. split; [reflexivity|]. split; [exact E|]. split.
  - intros j x J. apply V. lia.
  - intros r R. apply U. intros j J. apply R. lia.
Qed.
Print Assumptions C143_transform.

(** Indices in one vector of elements of another: put is seen by the keys with the same index only, if the
    vectors have nothing in common. *)
Definition indices (ks : list Z) : obj := Rec (map Leaf ks).
Theorem C143_two_vectors : forall s a b ks fs k i v, apart a b -> load s a = Ok (indices ks) -> load s b = Ok (Rec fs) ->
  (forall j, In j ks -> 0 <= j < Z.of_nat (length fs)) -> 0 <= k -> nth_error ks (Z.to_nat k) = Some i ->
  exists s', mput s (Comp (Cont a) (Cont b)) (Val (Leaf k)) v = Ok s' /\ load s' a = Ok (indices ks) /\
    forall k' i', 0 <= k' -> nth_error ks (Z.to_nat k') = Some i' ->
      exists r x, mget s' (Comp (Cont a) (Cont b)) (Val (Leaf k')) = Ok (s', Ref r) /\ load s' r = Ok x /\
        (i' = i -> x = v) /\ (i' <> i -> nth_error fs (Z.to_nat i') = Some x).
Proof.
  intros s [a p] [b q] ks fs k i v D A B In K N.
  assert (G : forall s fs k i, load s (a, p) = Ok (indices ks) -> load s (b, q) = Ok (Rec fs) -> 0 <= k -> nth_error ks (Z.to_nat k) = Some i -> 0 <= i < Z.of_nat (length fs) ->
    mget s (Cont (a, p)) (Val (Leaf k)) = Ok (s, Ref (a, p ++ [Z.to_nat k])) /\
    mget s (Cont (b, q)) (Ref (a, p ++ [Z.to_nat k])) = Ok (s, Ref (b, q ++ [Z.to_nat i]))).
  { clear. intros s fs k i A B K N I.
    assert (L : load s (a, p ++ [Z.to_nat k]) = Ok (Leaf i)).
    { eapply load_outer; [exact A|]. unfold indices. cbn. rewrite nth_error_map, N. reflexivity. }
    split.
    - apply (get_place _ _ _ _ _ (leads_element a p k K) L).
    - cbn. rewrite L. cbn. rewrite B. cbn. replace (0 <=? i) with true by (symmetry; apply Z.leb_le; lia).
      replace (i <? Z.of_nat (length fs)) with true by (symmetry; apply Z.ltb_lt; lia). reflexivity. }
  assert (I : 0 <= i < Z.of_nat (length fs)) by (apply In; eapply nth_error_In; eauto).
  destruct (G s fs k i A B K N I) as [G1 G2].
  destruct (nth_error fs (Z.to_nat i)) as [x|] eqn:X; [|apply nth_error_None in X; lia].
  assert (L : load s (b, q ++ [Z.to_nat i]) = Ok x) by (eapply load_outer; [exact B|]; cbn; now rewrite X).
  destruct (assign_ok _ _ _ v L) as [s' S]. exists s'.
  assert (DA : apart (b, q ++ [Z.to_nat i]) (a, p)).
  { destruct D as [D|(c & i0 & j0 & p0 & q0 & D & E1 & E2)]; [left; cbn in *; congruence|right]. cbn [snd] in *. subst.
    exists c, j0, i0, (q0 ++ [Z.to_nat i]), p0. rewrite <- app_assoc. auto. }
  split.
  - change (mput s (Comp (Cont (a, p)) (Cont (b, q))) (Val (Leaf k)) v) with (do (s, k) <- mget s (Cont (a, p)) (Val (Leaf k));
      match k with Val o => mput s (Cont (b, q)) (Val o) v | Ref r => mput s (Cont (b, q)) (Ref r) v end).
    rewrite G1. cbn [bind]. change (mput s (Cont (b, q)) (Ref (a, p ++ [Z.to_nat k])) v) with
      (do (s, r) <- mget s (Cont (b, q)) (Ref (a, p ++ [Z.to_nat k])); match r with Ref r => assign s r v | Val _ => UB end).
    rewrite G2. exact S.
  - assert (A' : load s' (a, p) = Ok (indices ks)) by (rewrite (load_assign_apart _ _ _ _ _ S DA); exact A).
    split; [exact A'|]. intros k' i' K' N'. destruct (assign_shape _ _ _ _ _ _ _ _ S B) as (fs' & B' & Len).
    assert (I' : 0 <= i' < Z.of_nat (length fs)) by (apply In; eapply nth_error_In; eauto).
    destruct (G s' fs' k' i' A' B' K' N' ltac:(lia)) as [G1' G2'].
    destruct (nth_error fs (Z.to_nat i')) as [x'|] eqn:X'; [|apply nth_error_None in X'; lia].
    exists (b, q ++ [Z.to_nat i']).
    destruct (Z.eq_dec i' i) as [->|Ne].
    + exists v. split; [cbn [mget]; cbn [mget] in G1'; rewrite G1'; exact G2'|]. split; [exact (load_assign_same _ _ _ _ S)|]. split; congruence.
    + exists x'. split; [cbn [mget]; cbn [mget] in G1'; rewrite G1'; exact G2'|]. split; [|split; congruence].
      rewrite (load_assign_apart _ _ _ _ _ S); [eapply load_outer; [exact B|]; cbn; now rewrite X'|].
      right. exists q, (Z.to_nat i), (Z.to_nat i'), [], []. split; [lia|auto].
Qed.
Print Assumptions C143_two_vectors.
(** With the same vector twice, the value that was put is not the one get returns. *)
Theorem C143_same_vector_refuted : exists s r s' x, mput s (Comp (Cont r) (Cont r)) (Val (Leaf 0)) (Leaf 2) = Ok s' /\
  (do (t, a) <- mget s' (Comp (Cont r) (Cont r)) (Val (Leaf 0)); value_of t a) = Ok x /\ x <> Leaf 2.
Proof.
  exists [Some (indices [0; 1; 1])], (0%nat, []). eexists. eexists. split; [vm_compute; reflexivity|]. split; [vm_compute; reflexivity|discriminate].
Qed.
Print Assumptions C143_same_vector_refuted.
(** A composite of three maps is nested to the left: a member of an object in a std::map, used by a
    function, is read after the object is gone; nested to the right it is not. *)
Theorem C143_nesting_refuted : exists s m1 m2 m3 key, mget s (Comp (Comp m1 m2) m3) key = UB /\
  exists s', mget s (Comp m1 (Comp m2 m3)) key = Ok (s', Val (Leaf 6)).
Proof.
  exists [Some (Rec [Rec [Leaf 7; Rec [Leaf 4; Leaf 5]]])], (Assoc (0%nat, []) (Rec [Leaf 0; Leaf 0])), (Member 1),
    (Fn (fun o => match o with Leaf v => Leaf (v + 1) | o => o end)), (Val (Leaf 7)).
  split; [vm_compute; reflexivity|]. eexists. vm_compute. reflexivity.
Qed.
Print Assumptions C143_nesting_refuted.

(** A map is invertible if it consists of shifts; then every number has a key, which invert returns. No other map
    can be inverted. *)
Fixpoint shifts (m : mp) : Prop := match m with Shift _ => True | Comp m1 m2 => shifts m1 /\ shifts m2 | _ => False end.
Lemma shifts_invertible m : invertible m = true <-> shifts m.
Proof. induction m; cbn; try (split; intros; try discriminate; contradiction); [tauto|]. now rewrite andb_true_iff, IHm1, IHm2. Qed.
Lemma shifts_value m : shifts m -> by_reference m = false /\ writable m = false.
Proof. induction m; cbn; try contradiction; [auto|]. intros [A B]. destruct (IHm1 A) as [-> ->], (IHm2 B) as [_ ->]. auto. Qed.
Lemma get_shifts s m : shifts m -> forall k, exists z, mget s m (Val (Leaf k)) = Ok (s, Val (Leaf z)) /\
  forall z', minvert m (Leaf z') = Ok (Leaf (k + (z' - z))).
Proof.
  induction m; cbn; try contradiction; intros H k.
  - eexists. split; [reflexivity|]. intros z'. do 2 f_equal. lia.
  - destruct H as [A B]. destruct (IHm1 A k) as (z & -> & V). destruct (IHm2 B z) as (w & G & V2). cbn.
    rewrite (proj1 (shifts_value _ B)). exists w. split; [exact G|]. intros z'. rewrite V2. cbn. rewrite V. do 2 f_equal. lia.
Qed.
Lemma minvert_outcome m : forall v, (exists x, minvert m v = Ok x) \/ minvert m v = UB.
Proof.
  induction m; intros v; cbn; auto; [destruct v; eauto|].
  destruct (IHm2 v) as [[x ->]| ->]; cbn; auto.
Qed.
Theorem C143_invert : forall m, (invertible m = true <-> shifts m) /\
  (shifts m -> forall s z, exists k, minvert m (Leaf z) = Ok (Leaf k) /\ mget s m (Val (Leaf k)) = Ok (s, Val (Leaf z))) /\
  (shifts m -> forall s k z, mget s m (Val (Leaf k)) = Ok (s, Val (Leaf z)) -> minvert m (Leaf z) = Ok (Leaf k)) /\
  (~ shifts m -> forall v, minvert m v = UB).
Proof.
  intros m. split; [apply shifts_invertible|]. split; [|split].
  - intros H s z. destruct (get_shifts s m H 0) as (z0 & G & V). eexists. split; [apply V|].
    destruct (get_shifts s m H (0 + (z - z0))) as (z1 & G1 & V1). rewrite G1. do 4 f_equal.
    pose proof (V z) as A. pose proof (V1 z1) as B. rewrite (V z1) in B. injection B. lia.
  - intros H s k z G. destruct (get_shifts s m H k) as (z0 & G0 & V). rewrite G0 in G. injection G as ->. rewrite V. do 2 f_equal. lia.
  - intros N v. revert v N. induction m; intros v N; cbn; try reflexivity; [cbn in N; tauto|].
    destruct (minvert m2 v) as [x| | | |] eqn:E.
    + cbn. apply IHm1. intros A. apply N. split; [exact A|]. apply shifts_invertible. destruct (invertible m2) eqn:I; [reflexivity|].
      rewrite IHm2 in E; [discriminate|]. rewrite <- shifts_invertible. congruence.
    + now destruct (minvert_outcome m2 v) as [[x F]|F]; rewrite E in F.
    + now destruct (minvert_outcome m2 v) as [[x F]|F]; rewrite E in F.
    + reflexivity.
    + now destruct (minvert_outcome m2 v) as [[x F]|F]; rewrite E in F.
Qed.
Print Assumptions C143_invert.
(** Shifts after a map of parts: put stores the number for which get returns what was put. *)
Theorem C143_put_shifted : forall m m2 k r s x z, leads m k r -> load s r = Ok (Leaf x) -> shifts m2 ->
  exists s', mput s (Comp m m2) k (Leaf z) = Ok s' /\ mget s' (Comp m m2) k = Ok (s', Val (Leaf z)) /\
    forall r', apart r r' -> load s' r' = load s r'.
Proof.
  intros m m2 k r s x z L X H. destruct (shifts_value _ H) as [B W]. destruct (proj1 (proj2 (C143_invert m2)) H s z) as (y & I & _).
  destruct (C143_put _ _ _ _ _ (Leaf y) L X) as (s' & P & _ & G & Y & A & _). exists s'. split; [|split; [|exact A]].
  - cbn [mput]. rewrite W, I. exact P.
  - cbn [mget]. rewrite G. cbn.
    assert (V : forall m s r y k, load s r = Ok (Leaf y) -> shifts m -> mget s m (Val (Leaf y)) = Ok (s, k) -> mget s m (Ref r) = Ok (s, k)).
    { clear. intros m s r y k L H. revert s r y k L. induction m; intros s0 r0 y0 k0 L; cbn in *; try contradiction; [now rewrite L|]. destruct H as [A B].
      destruct (get_shifts s0 m1 A y0) as (w & E & _). rewrite (IHm1 A _ _ _ _ L E), E. cbn. auto. }
    apply (V _ _ _ _ _ Y H). destruct (get_shifts s' m2 H y) as (w & E & V2). rewrite E. do 4 f_equal.
    pose proof (V2 z) as E2. rewrite I in E2. injection E2. lia.
Qed.
Print Assumptions C143_put_shifted.

(** ** Cases *)
(** A vector of structs { int a; struct { int b; int c; } d; } inside a struct. *)
Definition rec3 (a b c : Z) : obj := Rec [Leaf a; Rec [Leaf b; Leaf c]].
Definition world : store := [None; Some (Rec [Leaf 9; Rec [rec3 1 2 3; rec3 4 5 6; rec3 7 8 9]])].
Definition dc : mp := Comp (Member 1) (Member 1).
Example C143_case : member_chain dc [1; 1]%nat /\
  leads (Comp (Shift 10) (Comp (Cont (1, [1])%nat) dc)) (Val (Leaf 12)) (1, [1; 2; 1; 1])%nat /\
  load world (1, [1; 2; 1; 1])%nat = Ok (Leaf 9) /\ apart (1, [1; 2; 1; 1])%nat (1, [1; 2; 1; 0])%nat /\
  mput world (Comp (Shift 10) (Comp (Cont (1, [1])%nat) dc)) (Val (Leaf 12)) (Leaf 0) =
    Ok [None; Some (Rec [Leaf 9; Rec [rec3 1 2 3; rec3 4 5 6; rec3 7 8 0]])] /\
  mget world (Comp (Cont (1, [1])%nat) dc) (Val (Leaf 3)) = AssertFail /\
  mget world (Comp (Cont (1, [1])%nat) dc) (Val (Leaf (-1))) = AssertFail /\
  mget world (Member 0) (Ref (0, [])%nat) = UB.
Proof.
  assert (C : member_chain dc [1; 1]%nat) by (apply (mc_comp _ _ [1%nat] [1%nat]); constructor).
  split; [exact C|]. split.
  - apply leads_shift. change (12 - 10) with 2. apply leads_comp with (1, [1; 2])%nat; [apply (leads_element 1 [1%nat] 2); lia|]. exact (chain_leads _ _ C 1%nat [1; 2]%nat).
  - split; [reflexivity|]. split; [|repeat split; vm_compute; reflexivity].
    right. exists [1; 2; 1]%nat, 1%nat, 0%nat, [], []. split; [lia|split; reflexivity].
Qed.
Example C143_case_iteration : exists l, mrange world (1, [1])%nat dc = Ok l /\
  l = [(0, Ref (1, [1; 0; 1; 1])%nat); (1, Ref (1, [1; 1; 1; 1])%nat); (2, Ref (1, [1; 2; 1; 1])%nat)] /\
  transform_all world l (fun o => match o with Leaf v => Leaf (10 * v) | o => o end) =
    Ok [None; Some (Rec [Leaf 9; Rec [rec3 1 2 30; rec3 4 5 60; rec3 7 8 90]])].
Proof. eexists. split; [vm_compute; reflexivity|]. split; [reflexivity|vm_compute; reflexivity]. Qed.
(** Values: a std::map with the default for a key that is absent; put inserts or overwrites; through a shift. *)
Definition table : store := [Some (Rec [Rec [Leaf 7; Leaf 70]; Rec [Leaf 3; Leaf 30]])].
Definition byk : mp := Assoc (0%nat, []) (Leaf 0).
Example C143_case_values : mget table byk (Val (Leaf 3)) = Ok (table, Val (Leaf 30)) /\ mget table byk (Val (Leaf 4)) = Ok (table, Val (Leaf 0)) /\
  mget table (Comp byk (Shift 5)) (Val (Leaf 7)) = Ok (table, Val (Leaf 65)) /\
  mput table (Comp byk (Shift 5)) (Val (Leaf 7)) (Leaf 1) = Ok [Some (Rec [Rec [Leaf 7; Leaf 6]; Rec [Leaf 3; Leaf 30]])] /\
  mput table byk (Val (Leaf 4)) (Leaf 1) = Ok [Some (Rec [Rec [Leaf 7; Leaf 70]; Rec [Leaf 3; Leaf 30]; Rec [Leaf 4; Leaf 1]])] /\
  mput table (Comp byk (Comp (Shift 5) (Shift 6))) (Val (Leaf 7)) (Leaf 1) = Ok [Some (Rec [Rec [Leaf 7; Leaf 12]; Rec [Leaf 3; Leaf 30]])] /\
  mput table (Shift 1) (Val (Leaf 7)) (Leaf 1) = UB.
Proof. repeat split; vm_compute; reflexivity. Qed.
Example C143_case_two_vectors : let s := [Some (indices [2; 0; 2]); Some (Rec [Leaf 5; Leaf 6; Leaf 7])] in
  apart (0%nat, []) (1%nat, []) /\
  mput s (Comp (Cont (0%nat, [])) (Cont (1%nat, []))) (Val (Leaf 0)) (Leaf 1) = Ok [Some (indices [2; 0; 2]); Some (Rec [Leaf 5; Leaf 6; Leaf 1])].
Proof. split; [left; discriminate|vm_compute; reflexivity]. Qed.
(** A member of an object in a std::map: the reference is to an object that is gone. *)
Example C143_case_gone : let s := [Some (Rec [Rec [Leaf 7; Rec [Leaf 4; Leaf 5]]])] in let m := Assoc (0%nat, []) (Rec [Leaf 0; Leaf 0]) in
  mget s m (Val (Leaf 7)) = Ok (s, Val (Rec [Leaf 4; Leaf 5])) /\
  mget s (Comp m (Member 1)) (Val (Leaf 7)) = Ok (s ++ [None], Ref (1, [1])%nat) /\ load (s ++ [None]) (1, [1])%nat = UB.
Proof. repeat split; vm_compute; reflexivity. Qed.
Example C143_case_shifted : shifts (Comp (Shift 5) (Shift 6)) /\ minvert (Comp (Shift 5) (Shift 6)) (Leaf 1) = Ok (Leaf 12) /\
  mget world (Comp (Comp (Cont (1, [1])%nat) (Member 0)) (Comp (Shift 5) (Shift 6))) (Val (Leaf 1)) = Ok (world, Val (Leaf (-7))) /\
  mput world (Comp (Comp (Cont (1, [1])%nat) (Member 0)) (Comp (Shift 5) (Shift 6))) (Val (Leaf 1)) (Leaf 0) =
    Ok [None; Some (Rec [Leaf 9; Rec [rec3 1 2 3; rec3 11 5 6; rec3 7 8 9]])].
Proof. repeat split; vm_compute; reflexivity. Qed.
(** Parts that do not exist. *)
Example C143_case_outside : load world (1, [2])%nat = UB /\ load world (2, [])%nat = UB /\ assign world (1, [2])%nat (Leaf 0) = UB /\
  assign world (0, [])%nat (Leaf 0) = UB /\ mget world (Cont (1, [0])%nat) (Val (Leaf 0)) = UB /\ minvert (Shift 1) (Rec []) = UB /\
  mrange world (1, [0])%nat dc = UB /\
  mput table (Comp (Assoc (0%nat, []) (Rec [Leaf 1; Leaf 2])) (Member 1)) (Val (Leaf 8)) (Leaf 5) = Ok (table ++ [None]).
Proof. repeat split; vm_compute; reflexivity. Qed.
