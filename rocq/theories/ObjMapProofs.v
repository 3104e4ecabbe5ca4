(** Proofs about property maps over objects in memory. *)
From Coq Require Import ZArith List Bool Lia.
From Verif Require Import Outcome ObjMapModel.
Import ListNotations.
Local Open Scope Z_scope.
Local Arguments load : simpl never.
Local Arguments assign : simpl never.

Lemma nth_set_same fs i o x : nth_error fs i = Some x -> nth_error (set_nth fs i o) i = Some o.
Proof. revert i. induction fs as [|a fs IH]; intros [|i]; cbn; try discriminate; auto. Qed.
Lemma nth_set_other fs i j o : i <> j -> nth_error (set_nth fs i o) j = nth_error fs j.
Proof. revert i j. induction fs as [|a fs IH]; intros [|i] [|j] H; cbn; try reflexivity; [lia|]. apply IH. lia. Qed.
Lemma set_nth_length fs i o : length (set_nth fs i o) = length fs.
Proof. revert i. induction fs as [|a fs IH]; intros [|i]; cbn; auto. Qed.
Lemma set_nth_id fs i x : nth_error fs i = Some x -> set_nth fs i x = fs.
Proof. revert i. induction fs as [|a fs IH]; intros [|i]; cbn; try discriminate; [intros [= ->]; reflexivity|]. intros H. f_equal. auto. Qed.
Lemma set_nth_twice fs i x y : set_nth (set_nth fs i x) i y = set_nth fs i y.
Proof. revert i. induction fs as [|a fs IH]; intros [|i]; cbn; try reflexivity. f_equal. auto. Qed.

Lemma cell_same s a c o : nth_error s a = Some c -> nth_error (set_cell s a o) a = Some o.
Proof. revert a. induction s as [|b s IH]; intros [|a]; cbn; try discriminate; auto. Qed.
Lemma cell_other s a b o : a <> b -> nth_error (set_cell s a o) b = nth_error s b.
Proof. revert a b. induction s as [|c s IH]; intros [|a] [|b] H; cbn; try reflexivity; [lia|]. apply IH. lia. Qed.
Lemma set_cell_id s a c : nth_error s a = Some c -> set_cell s a c = s.
Proof. revert a. induction s as [|b s IH]; intros [|a]; cbn; try discriminate; [intros [= ->]; reflexivity|]. intros H. f_equal. auto. Qed.
Lemma set_cell_twice s a x y : set_cell (set_cell s a x) a y = set_cell s a y.
Proof. revert a. induction s as [|b s IH]; intros [|a]; cbn; try reflexivity. f_equal. auto. Qed.
Lemma set_cell_length s a o : length (set_cell s a o) = length s.
Proof. revert a. induction s as [|b s IH]; intros [|a]; cbn; auto. Qed.

Lemma at_app o p q : at_path o (p ++ q) = match at_path o p with Some x => at_path x q | None => None end.
Proof.
  revert o. induction p as [|i p IH]; intros o; cbn; [reflexivity|]. destruct o; [reflexivity|].
  destruct (nth_error fields i); [apply IH|reflexivity].
Qed.
Lemma set_ok o p x v : at_path o p = Some x -> exists o', set_path o p v = Some o'.
Proof.
  revert o. induction p as [|i p IH]; intros o; cbn; [eauto|]. destruct o; [discriminate|].
  destruct (nth_error fields i); [|discriminate]. intros H. destruct (IH _ H) as [o' ->]. eauto.
Qed.
Lemma set_some o p v o' : set_path o p v = Some o' -> exists x, at_path o p = Some x.
Proof.
  revert o o'. induction p as [|i p IH]; intros o o'; cbn; [eauto|]. destruct o; [discriminate|].
  destruct (nth_error fields i) as [y|]; [|discriminate]. destruct (set_path y p v) eqn:E; [|discriminate]. intros _. eauto.
Qed.
Lemma at_set_same o p v o' : set_path o p v = Some o' -> at_path o' p = Some v.
Proof.
  revert o o'. induction p as [|i p IH]; intros o o'; cbn; [intros [= ->]; reflexivity|]. destruct o; [discriminate|].
  destruct (nth_error fields i) eqn:N; [|discriminate]. destruct (set_path o p v) eqn:E; [|discriminate].
  intros [= <-]. cbn. erewrite nth_set_same by eauto. eauto.
Qed.
Lemma at_set_fork o c i j p q v o' : i <> j -> set_path o (c ++ i :: p) v = Some o' -> at_path o' (c ++ j :: q) = at_path o (c ++ j :: q).
Proof.
  intros D. revert o o'. induction c as [|k c IH]; intros o o'.
  - cbn. destruct o; [discriminate|]. destruct (nth_error fields i); [|discriminate]. destruct (set_path o p v); [|discriminate].
    intros [= <-]. rewrite nth_set_other by auto. reflexivity.
  - cbn. destruct o; [discriminate|]. destruct (nth_error fields k) eqn:N; [|discriminate].
    destruct (set_path o (c ++ i :: p) v) eqn:E; [|discriminate]. intros [= <-]. erewrite nth_set_same by eauto. eauto.
Qed.
Lemma set_at o p x : at_path o p = Some x -> set_path o p x = Some o.
Proof.
  revert o. induction p as [|i p IH]; intros o; cbn; [intros [= ->]; reflexivity|]. destruct o; [discriminate|].
  destruct (nth_error fields i) eqn:N; [|discriminate]. intros H. rewrite (IH _ H). now rewrite set_nth_id.
Qed.
Lemma set_set o p v w o' : set_path o p v = Some o' -> set_path o' p w = set_path o p w.
Proof.
  revert o o'. induction p as [|i p IH]; intros o o'; cbn; [reflexivity|]. destruct o; [discriminate|].
  destruct (nth_error fields i) eqn:N; [|discriminate]. destruct (set_path o p v) eqn:E; [|discriminate].
  intros [= <-]. erewrite nth_set_same by eauto. rewrite (IH _ _ E). destruct (set_path o p w); [|reflexivity]. now rewrite set_nth_twice.
Qed.
Lemma set_shape o c i p v o' fs : set_path o (c ++ i :: p) v = Some o' -> at_path o c = Some (Rec fs) ->
  exists fs', at_path o' c = Some (Rec fs') /\ length fs' = length fs.
Proof.
  revert o o'. induction c as [|k c IH]; intros o o'.
  - cbn. intros H [= ->]. destruct (nth_error fs i); [|discriminate]. destruct (set_path o p v); [|discriminate].
    injection H as <-. eexists. split; [reflexivity|apply set_nth_length].
  - cbn. destruct o; [discriminate|]. destruct (nth_error fields k) eqn:N; [|discriminate].
    destruct (set_path o (c ++ i :: p) v) eqn:E; [|discriminate]. intros [= <-] H. erewrite nth_set_same by eauto. eauto.
Qed.

(** Two references to parts with nothing in common: different objects, or different members at some
    place on the way. *)
Definition apart (r1 r2 : ref) : Prop :=
  fst r1 <> fst r2 \/ exists c i j p q, i <> j /\ snd r1 = c ++ i :: p /\ snd r2 = c ++ j :: q.
Lemma apart_sym r1 r2 : apart r1 r2 -> apart r2 r1.
Proof. intros [H|(c & i & j & p & q & D & E1 & E2)]; [left; auto|right]. exists c, j, i, q, p. auto. Qed.

Lemma load_cell s r x : load s r = Ok x <-> exists o, nth_error s (fst r) = Some (Some o) /\ at_path o (snd r) = Some x.
Proof.
  unfold load. destruct (nth_error s (fst r)) as [[o|]|]; [|split; [discriminate|intros (? & ? & ?); discriminate]..].
  destruct (at_path o (snd r)) eqn:E; split; try discriminate.
  - intros [= <-]. eauto.
  - intros (o' & [= <-] & H). congruence.
  - intros (o' & [= <-] & H). congruence.
Qed.
Lemma load_inner s a p q x : load s (a, p ++ q) = Ok x -> exists y, load s (a, p) = Ok y /\ at_path y q = Some x.
Proof.
  intros H. apply load_cell in H as (o & N & A). cbn in *. rewrite at_app in A. destruct (at_path o p) eqn:E; [|discriminate].
  exists o0. split; [apply load_cell; eauto|exact A].
Qed.
Lemma load_outer s a p q x y : load s (a, p) = Ok y -> at_path y q = Some x -> load s (a, p ++ q) = Ok x.
Proof. intros H A. apply load_cell in H as (o & N & B). cbn in *. apply load_cell. exists o. cbn. split; [exact N|]. rewrite at_app, B. exact A. Qed.
Lemma assign_cell s r v s' : assign s r v = Ok s' <->
  exists o o', nth_error s (fst r) = Some (Some o) /\ set_path o (snd r) v = Some o' /\ s' = set_cell s (fst r) (Some o').
Proof.
  unfold assign. destruct (nth_error s (fst r)) as [[o|]|]; [|split; [discriminate|intros (? & ? & ? & ?); discriminate]..].
  destruct (set_path o (snd r) v) eqn:E; split; try discriminate.
  - intros [= <-]. eauto.
  - intros (o1 & o2 & [= <-] & H & ->). congruence.
  - intros (o1 & o2 & [= <-] & H & _). congruence.
Qed.
Lemma assign_ok s r x v : load s r = Ok x -> exists s', assign s r v = Ok s'.
Proof. intros H. apply load_cell in H as (o & N & A). destruct (set_ok _ _ _ v A) as [o' E]. eexists. apply assign_cell. eauto. Qed.
Lemma load_assign_same s r v s' : assign s r v = Ok s' -> load s' r = Ok v.
Proof. intros H. apply assign_cell in H as (o & o' & N & E & ->). apply load_cell. exists o'. split; [eapply cell_same; eauto|eapply at_set_same; eauto]. Qed.
Lemma load_assign_apart s r v s' r' : assign s r v = Ok s' -> apart r r' -> load s' r' = load s r'.
Proof.
  intros H D. apply assign_cell in H as (o & o' & N & E & ->). unfold load. destruct (Nat.eq_dec (fst r) (fst r')) as [F|F].
  - rewrite <- F. erewrite cell_same by eauto. rewrite N. destruct D as [D|(c & i & j & p & q & D & E1 & E2)]; [contradiction|].
    rewrite E1 in E. rewrite E2. now rewrite (at_set_fork _ _ _ _ _ _ _ _ D E).
  - now rewrite cell_other.
Qed.
Lemma assign_load s r x : load s r = Ok x -> assign s r x = Ok s.
Proof.
  intros H. apply load_cell in H as (o & N & A). apply assign_cell. exists o, o. split; [exact N|]. split; [now apply set_at|]. symmetry. now apply set_cell_id.
Qed.
Lemma assign_assign s r v w s' : assign s r v = Ok s' -> assign s' r w = assign s r w.
Proof.
  intros H. apply assign_cell in H as (o & o' & N & E & ->). unfold assign. erewrite cell_same by eauto. rewrite N, (set_set _ _ _ w _ E).
  destruct (set_path o (snd r) w); [|reflexivity]. now rewrite set_cell_twice.
Qed.
Lemma assign_shape s a c i p v s' fs : assign s (a, c ++ i :: p) v = Ok s' -> load s (a, c) = Ok (Rec fs) ->
  exists fs', load s' (a, c) = Ok (Rec fs') /\ length fs' = length fs.
Proof.
  intros H L. apply assign_cell in H as (o & o' & N & E & ->). apply load_cell in L as (o1 & N1 & A). cbn [fst snd] in *.
  rewrite N in N1. injection N1 as <-. destruct (set_shape _ _ _ _ _ _ _ E A) as (fs' & A' & L). exists fs'. split; [|exact L].
  apply load_cell. exists o'. cbn. split; [eapply cell_same; eauto|exact A'].
Qed.

(** Members of members. *)
Inductive member_chain : mp -> path -> Prop :=
| mc_one i : member_chain (Member i) [i]
| mc_comp m1 m2 p q : member_chain m1 p -> member_chain m2 q -> member_chain (Comp m1 m2) (p ++ q).
(** The part a map names for a key: members of the object given by reference, elements of a vector. *)
Inductive leads : mp -> arg -> ref -> Prop :=
| leads_member i a p : leads (Member i) (Ref (a, p)) (a, p ++ [i])
| leads_element a p k : 0 <= k -> leads (Cont (a, p)) (Val (Leaf k)) (a, p ++ [Z.to_nat k])
| leads_comp m1 m2 k r r' : leads m1 k r -> leads m2 (Ref r) r' -> leads (Comp m1 m2) k r'
| leads_shift m c k r : leads m (Val (Leaf (k - c))) r -> leads (Comp (Shift c) m) (Val (Leaf k)) r.

Lemma chain_leads m q : member_chain m q -> forall a p, leads m (Ref (a, p)) (a, p ++ q).
Proof.
  induction 1 as [i|m1 m2 p q H1 IH1 H2 IH2]; intros a p0; [constructor|]. econstructor; [apply IH1|]. rewrite app_assoc. apply IH2.
Qed.
Lemma leads_ref m k r : leads m k r -> forall a p, k = Ref (a, p) -> by_reference m = true /\ exists q, r = (a, p ++ q).
Proof.
  induction 1 as [i a p|a p k H|m1 m2 k r r' H1 IH1 H2 IH2|m c k r H IH]; intros a0 p0 E; try discriminate.
  - injection E as -> ->. split; [reflexivity|eauto].
  - destruct (IH1 _ _ E) as (B & q & ->). destruct (IH2 _ _ eq_refl) as (_ & q' & ->). split; [exact B|]. exists (q ++ q'). now rewrite app_assoc.
Qed.
Lemma leads_val m k r : leads m k r -> forall o, k = Val o -> by_reference m = false.
Proof.
  induction 1 as [i a p|a p k H|m1 m2 k r r' H1 IH1 H2 IH2|m c k r H IH]; intros o E; try discriminate; try reflexivity. cbn. eauto.
Qed.
Lemma leads_writable m k r : leads m k r -> writable m = true.
Proof. induction 1; cbn; try reflexivity; now rewrite ?IHleads, ?IHleads2. Qed.

Lemma get_place m k r s x : leads m k r -> load s r = Ok x -> mget s m k = Ok (s, Ref r).
Proof.
  intros H. revert x. induction H as [i a p|a p k H|m1 m2 k r r' H1 IH1 H2 IH2|m c k r H IH]; intros x L; cbn.
  - rewrite L. reflexivity.
  - destruct (load_inner _ _ _ _ _ L) as (y & -> & A). cbn. destruct y; [discriminate|].
    cbn in A. destruct (nth_error fields (Z.to_nat k)) eqn:N; [|discriminate].
    assert (B : (Z.to_nat k < length fields)%nat) by (apply nth_error_Some; congruence).
    replace (0 <=? k) with true by (symmetry; apply Z.leb_le; lia). replace (k <? Z.of_nat (length fields)) with true by (symmetry; apply Z.ltb_lt; lia).
    reflexivity.
  - destruct r as [a p]. destruct (leads_ref _ _ _ H2 _ _ eq_refl) as (_ & q & ->).
    destruct (load_inner _ _ _ _ _ L) as (y & Ly & A). rewrite (IH1 _ Ly). cbn. eauto.
  - rewrite (leads_val _ _ _ H _ eq_refl). eauto.
Qed.
Lemma get_place_only m k r s s' a : leads m k r -> mget s m k = Ok (s', a) -> s' = s /\ a = Ref r /\ exists x, load s r = Ok x.
Proof.
  intros H. revert s s' a. induction H as [i a p|a p k H|m1 m2 k r r' H1 IH1 H2 IH2|m c k r H IH]; intros s s' b; cbn.
  - destruct (load s (a, p ++ [i])) eqn:L; try discriminate. intros [= <- <-]. eauto.
  - destruct (load s (a, p)) as [c| | | |] eqn:L; try discriminate. cbn. destruct c; [discriminate|].
    unfold assert_then. destruct ((0 <=? k) && (k <? Z.of_nat (length fields))) eqn:B; [|discriminate]. intros [= <- <-].
    apply andb_true_iff in B as [B1 B2]. apply Z.leb_le in B1. apply Z.ltb_lt in B2.
    split; [reflexivity|]. split; [reflexivity|]. destruct (nth_error fields (Z.to_nat k)) as [x|] eqn:N.
    + exists x. apply load_outer with (Rec fields); [exact L|]. cbn. now rewrite N.
    + apply nth_error_None in N. lia.
  - destruct (mget s m1 k) as [[s1 k1]| | | |] eqn:G; try discriminate. cbn. destruct (IH1 _ _ _ G) as (-> & -> & _). apply IH2.
  - rewrite (leads_val _ _ _ H _ eq_refl). apply IH.
Qed.
Lemma put_place m k r s v : leads m k r -> forall x, load s r = Ok x -> mput s m k v = assign s r v.
Proof.
  induction 1 as [i a p|a p k H|m1 m2 k r r' H1 IH1 H2 IH2|m c k r H IH]; intros x L.
  - change (mput s (Member i) (Ref (a, p)) v) with (do (s, r) <- mget s (Member i) (Ref (a, p)); match r with Ref r => assign s r v | Val _ => UB end).
    now rewrite (get_place _ _ _ _ _ (leads_member i a p) L).
  - change (mput s (Cont (a, p)) (Val (Leaf k)) v) with (do (s, r) <- mget s (Cont (a, p)) (Val (Leaf k)); match r with Ref r => assign s r v | Val _ => UB end).
    now rewrite (get_place _ _ _ _ _ (leads_element a p k H) L).
  - cbn. rewrite (leads_writable _ _ _ H2). destruct r as [a p]. destruct (leads_ref _ _ _ H2 _ _ eq_refl) as (_ & q & ->).
    destruct (load_inner _ _ _ _ _ L) as (y & Ly & A). rewrite (get_place _ _ _ _ _ H1 Ly). cbn. eauto.
  - cbn. rewrite (leads_writable _ _ _ H), (leads_val _ _ _ H _ eq_refl). eauto.
Qed.
