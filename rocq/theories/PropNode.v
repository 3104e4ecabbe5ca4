(** C139: ids of the elements of lists, sets and hash sets. *)
From Coq Require Import ZArith List Bool Permutation Lia Sorted.
From Verif Require Import Outcome NumericModel BinaryModel RandomProofs NodeModel NodeProofs.
Import ListNotations.
Local Open Scope Z_scope.

Section Spec.
  Context {A : Type} (lt eqb : A -> A -> bool) (hash : A -> Z).
  Notation cont := (list (Z * A)).

  (** ** Specification *)
  Definition elements (c : cont) : list A := map snd c.
  (** The element that an id names. *)
  Definition names (c : cont) (i : id) (x : A) : Prop := exists a, i = Some a /\ In (a, x) c.
  Definition strict_weak : Prop := (forall x, lt x x = false) /\
    (forall x y z, lt x y = true -> lt y z = true -> lt x z = true) /\
    (forall x y z, lt x z = true -> lt x y = true \/ lt y z = true).
  (** What is asked of the comparisons of the elements. *)
  Definition lawful (k : kind) : Prop :=
    match k with Sequence => True | Sorted _ => strict_weak | Hashed _ => forall x y, eqb x y = eqb y x end.
  (** Elements that a container without duplicates takes for the same. *)
  Definition alike (k : kind) (x y : A) : Prop :=
    match k with
    | Sequence => False
    | Sorted _ => lt x y = false /\ lt y x = false
    | Hashed _ => hash x = hash y /\ eqb y x = true
    end.
  Definition unique (k : kind) : bool := match k with Sequence => false | Sorted u | Hashed u => u end.
  Definition in_order (k : kind) (xs : list A) : Prop :=
    match k with Sorted _ => StronglySorted (fun x y => lt y x = false) xs | _ => True end.
  Definition no_duplicates (k : kind) (c : cont) : Prop :=
    unique k = true -> forall a b x y, In (a, x) c -> In (b, y) c -> a <> b -> ~ alike k x y.
  Definition valid (k : kind) (c : cont) : Prop :=
    NoDup (map fst c) /\ in_order k (elements c) /\ no_duplicates k c.

  (** ** Lemmas *)
  Lemma names_at c i x : NoDup (map fst c) -> names c i x <-> id_at c i = Ok x.
  Proof.
    intros N. unfold names, id_at. destruct i as [a|]; cbn [id_check assert_then].
    - split.
      + intros (b & [= <-] & I). now rewrite (In_lookup c a x N I).
      + destruct (lookup c a) as [y|] eqn:E; [|discriminate]. intros [= <-]. exists a. split; [reflexivity|now apply lookup_In].
    - split; [intros (b & E & _); discriminate|discriminate].
  Qed.
  Lemma alike_equivalent x y u : alike (Sorted u) x y <-> equivalent lt x y = true.
  Proof. unfold equivalent. cbn. rewrite andb_true_iff, !negb_true_iff. reflexivity. Qed.
  Lemma alike_same_key x y u : alike (Hashed u) x y <-> same_key eqb hash x y = true.
  Proof. unfold same_key. cbn. rewrite andb_true_iff, Z.eqb_eq. split; intros [E F]; (split; [now symmetry|exact F]). Qed.
  Lemma alike_sym k x y : lawful k -> alike k x y -> alike k y x.
  Proof.
    destruct k; cbn; [easy|tauto|]. intros S [-> E]. split; [reflexivity|]. now rewrite S.
  Qed.
  Lemma sorted_app (R : A -> A -> Prop) l r : StronglySorted R (l ++ r) <->
    StronglySorted R l /\ StronglySorted R r /\ Forall (fun x => Forall (R x) r) l.
  Proof.
    induction l as [|x l IH]; cbn [app].
    - split; [intros H; repeat split; [constructor|exact H|constructor]|tauto].
    - split.
      + intros H. inversion H as [|? ? S F]; subst. apply IH in S as (S1 & S2 & F2). apply Forall_app in F as [F3 F4].
        repeat split; [now constructor|exact S2|now constructor].
      + intros (H1 & H2 & H3). inversion H1; subst. inversion H3; subst. constructor; [now apply IH|]. apply Forall_app. now split.
  Qed.
  Lemma insert_place (c : cont) n : strict_weak -> StronglySorted (fun x y => lt y x = false) (elements c) ->
    exists l r, c = l ++ r /\ insert_sorted lt c n = l ++ n :: r /\
    Forall (fun m => lt (snd n) (snd m) = false) l /\ Forall (fun m => lt (snd n) (snd m) = true) r.
  Proof.
    intros (_ & _ & CO) S. destruct (insert_sorted_split lt c n) as (l & r & -> & E & F & H). exists l, r. repeat split; try assumption.
    destruct r as [|m r]; [constructor|]. constructor; [exact H|].
    unfold elements in S. rewrite map_app in S. apply sorted_app in S as (_ & S & _). cbn [map] in S. inversion S as [|? ? _ G]; subst.
    rewrite Forall_map in G. revert G. apply Forall_impl. intros m' L. destruct (CO _ (snd m') _ H) as [E'|E']; [exact E'|congruence].
  Qed.
  Lemma in_order_insert l x r u : strict_weak -> in_order (Sorted u) (l ++ r) ->
    Forall (fun m => lt x m = false) l -> Forall (fun m => lt x m = true) r -> in_order (Sorted u) (l ++ x :: r).
  Proof.
    intros (IR & TR & _) S F G. cbn in S |- *. apply sorted_app in S as (S1 & S2 & S3). apply sorted_app. repeat split.
    - exact S1.
    - constructor; [exact S2|]. revert G. apply Forall_impl. intros m E. destruct (lt m x) eqn:E2; [|reflexivity].
      specialize (TR _ _ _ E E2). now rewrite IR in TR.
    - rewrite Forall_forall in *. intros y I. constructor; [now apply F|]. now apply S3.
  Qed.
  Lemma insert_fresh (l r : cont) a x : NoDup (map fst (l ++ r)) -> ~ In a (map fst (l ++ r)) -> NoDup (map fst (l ++ (a, x) :: r)).
  Proof.
    intros N F. rewrite map_app in *. cbn [map fst]. apply NoDup_Add with (a := a) (l := map fst l ++ map fst r); [apply Add_app|]. now split.
  Qed.
  Lemma names_insert (l r : cont) a x i y : names (l ++ (a, x) :: r) i y <-> (i = Some a /\ y = x) \/ names (l ++ r) i y.
  Proof.
    unfold names. split.
    - intros (b & -> & I). apply in_app_iff in I as [I|[[= -> ->]|I]]; [right|now left|right]; exists b; (split; [reflexivity|apply in_app_iff; tauto]).
    - intros [[-> ->]|(b & -> & I)]; [exists a|exists b]; (split; [reflexivity|]); rewrite in_app_iff in *; cbn; tauto.
  Qed.
  Lemma names_perm (c d : cont) i y : Permutation c d -> names c i y <-> names d i y.
  Proof.
    intros P. split; intros (a & E & I); exists a; (split; [exact E|]); [now apply (Permutation_in _ P)|now apply (Permutation_in _ (Permutation_sym P))].
  Qed.

  (** ** Theorems *)
  (** Going over the ids gives every element once, in the order of the container, and never the null id. *)
  Theorem C139_range c : NoDup (map fst c) ->
    exists is, id_range c = Ok is /\ NoDup is /\ ~ In id_null is /\ map (id_at c) is = map Ok (elements c).
  Proof.
    intros N. exists (map (fun n => Some (fst n)) c). split; [apply (walk_from c [] N); lia|]. split; [|split].
    - rewrite <- (map_map fst Some). apply FinFun.Injective_map_NoDup; [intros x y [= E]; exact E|exact N].
    - intros I. apply in_map_iff in I as (n & E & _). discriminate.
    - unfold elements. rewrite !map_map. apply map_ext_in. intros [a x] I. apply names_at; [exact N|]. exists a. now split.
  Qed.
  (** The null id names nothing: it is refused when an element is asked for. *)
  Theorem C139_null (c : cont) x : id_at c id_null = AssertFail /\ id_write c id_null x = AssertFail /\ id_erase c id_null = UB.
  Proof. repeat split. Qed.
  (** Past the end there is nothing to step to, and an id of an element that was erased must not be
      used for anything. *)
  Theorem C139_stale (c : cont) a x : ~ In a (map fst c) ->
    id_next c id_end = UB /\ id_next c (Some a) = UB /\ id_at c (Some a) = UB /\
    id_write c (Some a) x = UB /\ id_erase c (Some a) = UB.
  Proof.
    intros N. assert (next c a = None) as E.
    { induction c as [|[b y] c IH]; [reflexivity|]. cbn [map fst In next] in *.
      destruct (Z.eqb_spec b a) as [->|]; [tauto|]. apply IH. tauto. }
    apply lookup_None in N. unfold id_next, id_at, id_write, id_erase. cbn [id_end id_check assert_then].
    now rewrite E, N.
  Qed.

  (** The new node of an insertion. *)
  Lemma emplace_new k order a c x c' : lawful k -> valid k c -> ~ In a (map fst c) -> (forall d, Permutation (order d) d) ->
    (forall y, unique k = true -> In y (elements c) -> ~ alike k x y) ->
    c' = match k with Sequence => c ++ [(a, x)] | Sorted _ => insert_sorted lt c (a, x) | Hashed _ => order (c ++ [(a, x)]) end ->
    valid k c' /\ (forall i y, names c' i y <-> (i = Some a /\ y = x) \/ names c i y) /\ Permutation (elements c') (x :: elements c).
  Proof.
    intros LA (N & O & D) F P U E.
    assert (exists l r, c = l ++ r /\ Permutation c' (l ++ (a, x) :: r) /\ in_order k (elements c')) as (l & r & -> & Q & O').
    { destruct k.
      - subst c'. exists c, []. rewrite app_nil_r. repeat split. reflexivity.
      - destruct (insert_place c (a, x) LA O) as (l & r & -> & E' & F1 & F2). exists l, r. rewrite E, E'. repeat split; [reflexivity|].
        unfold elements in *. rewrite map_app in *. change (map snd ((a, x) :: r)) with (x :: map snd r). apply in_order_insert; [exact LA|exact O| |]; now rewrite Forall_map.
      - subst c'. exists c, []. rewrite app_nil_r. repeat split. apply P. }
    assert (NN : NoDup (map fst (l ++ (a, x) :: r))) by now apply insert_fresh.
    assert (NM : forall i y, names c' i y <-> (i = Some a /\ y = x) \/ names (l ++ r) i y).
    { intros i y. rewrite (names_perm _ _ i y Q). apply names_insert. }
    repeat split.
    - eapply Permutation_NoDup; [apply Permutation_map, Permutation_sym, Q|exact NN].
    - exact O'.
    - intros UN b b' y y' I1 I2 NE AL.
      assert (H1 : names c' (Some b) y) by (exists b; now split). assert (H2 : names c' (Some b') y') by (exists b'; now split).
      apply NM in H1. apply NM in H2.
      destruct H1 as [[[= ->] ->]|(b1 & [= <-] & J1)], H2 as [[[= ->] ->]|(b2 & [= <-] & J2)].
      + now elim NE.
      + apply (U y' UN); [now apply (in_map snd) in J2|exact AL].
      + apply (U y UN); [now apply (in_map snd) in J1|now apply alike_sym].
      + exact (D UN b b' y y' J1 J2 NE AL).
    - apply NM.
    - apply NM.
    - unfold elements. rewrite (Permutation_map snd Q), !map_app. cbn [map snd]. symmetry. apply Permutation_middle.
  Qed.

  (** Insertion: a new id for the new element, unless the container has no duplicates and an element
      alike; all ids handed out before name what they named. *)
  Theorem C139_emplace k order a c x : lawful k -> valid k c -> ~ In a (map fst c) -> (forall d, Permutation (order d) d) ->
    exists c' i, 
    (id_emplace lt eqb hash k order a c x = (c', (i, true)) /\ id_at c' i = Ok x /\ (forall y, id_at c i <> Ok y) /\
     (forall j y, j <> i -> id_at c' j = Ok y <-> id_at c j = Ok y) /\
     Permutation (elements c') (x :: elements c) /\ (k = Sequence -> elements c' = elements c ++ [x]) /\
     (forall y, unique k = true -> In y (elements c) -> ~ alike k x y)
     \/ id_emplace lt eqb hash k order a c x = (c', (i, false)) /\ c' = c /\ unique k = true /\
        (exists y, id_at c i = Ok y /\ alike k x y)) /\ valid k c'.
  Proof.
    intros LA V F P. pose proof V as (N & _ & _).
    set (c1 := match k with Sequence => c ++ [(a, x)] | Sorted _ => insert_sorted lt c (a, x) | Hashed _ => order (c ++ [(a, x)]) end).
    assert (NEW : (forall y, unique k = true -> In y (elements c) -> ~ alike k x y) ->
      id_at c1 (Some a) = Ok x /\ (forall y, id_at c (Some a) <> Ok y) /\
      (forall j y, j <> Some a -> id_at c1 j = Ok y <-> id_at c j = Ok y) /\
      Permutation (elements c1) (x :: elements c) /\ valid k c1).
    { intros U. destruct (emplace_new k order a c x c1 LA V F P U eq_refl) as (V1 & NM & PE). pose proof V1 as (N1 & _ & _). repeat split.
      - apply names_at; [exact N1|]. apply NM. now left.
      - intros y E. apply names_at in E; [|exact N]. destruct E as (b & [= <-] & I). apply F. now apply (in_map fst) in I.
      - intros E. apply names_at in E; [|exact N1]. apply names_at; [exact N|]. apply NM in E as [[E _]|E]; [contradiction|exact E].
      - intros E. apply names_at in E; [|exact N]. apply names_at; [exact N1|]. apply NM. now right.
      - exact PE.
      - exact N1.
      - apply V1.
      - apply V1. }
    assert (SEQ : k = Sequence -> elements c1 = elements c ++ [x]).
    { intros ->. unfold c1, elements. now rewrite map_app. }
    destruct (unique k) eqn:UK.
    2: { exists c1, (Some a). destruct (NEW ltac:(discriminate)) as (H1 & H2 & H3 & H4 & H5). split; [|exact H5]. left.
         split; [destruct k as [| [] | []]; try discriminate UK; reflexivity|]. repeat split; try assumption; try (apply H3; assumption). discriminate. }
    set (p := match k with Hashed _ => same_key eqb hash x | _ => equivalent lt x end).
    assert (AP : forall y, alike k x y <-> p y = true).
    { intros y. destruct k; [discriminate|apply alike_equivalent|apply alike_same_key]. }
    pose proof (first_node_spec p c) as FS. destruct (first_node p c) as [b|] eqn:FN.
    - exists c, (Some b). split; [|exact V]. right. split; [|split; [reflexivity|split; [reflexivity|]]].
      + destruct k as [|[]|[]]; try discriminate UK; cbn [id_emplace]; subst p; cbn beta iota in FN; now rewrite FN.
      + destruct FS as (l & y & r & -> & PY & _). exists y. split; [|now apply AP]. apply names_at; [exact N|]. exists b. split; [reflexivity|].
        apply in_app_iff. right. now left.
    - assert (U : forall y, true = true -> In y (elements c) -> ~ alike k x y).
      { intros y _ I AL. apply AP in AL. apply in_map_iff in I as (n & <- & I). rewrite Forall_forall in FS. rewrite (FS n I) in AL. discriminate. }
      exists c1, (Some a). destruct (NEW U) as (H1 & H2 & H3 & H4 & H5). split; [|exact H5]. left.
      split; [destruct k as [|[]|[]]; try discriminate UK; cbn [id_emplace]; subst p; cbn beta iota in FN; now rewrite FN|].
      repeat split; try assumption; apply H3; assumption.
  Qed.

  (** In a sorted container the new element goes behind all that are not greater. *)
  Theorem C139_emplace_place u order a c x : strict_weak -> valid (Sorted u) c ->
    snd (snd (id_emplace lt eqb hash (Sorted u) order a c x)) = true ->
    exists l r, elements c = l ++ r /\ elements (fst (id_emplace lt eqb hash (Sorted u) order a c x)) = l ++ x :: r /\
    Forall (fun y => lt x y = false) l /\ Forall (fun y => lt x y = true) r.
  Proof.
    intros SW (_ & O & _) B. destruct (insert_place c (a, x) SW O) as (l & r & E & I & F & G).
    assert (EM : fst (id_emplace lt eqb hash (Sorted u) order a c x) = l ++ (a, x) :: r).
    { rewrite <- I. destruct u; [|reflexivity]. cbn [id_emplace] in *. destruct (first_node (equivalent lt x) c); [discriminate|reflexivity]. }
    exists (map snd l), (map snd r). rewrite EM, E. unfold elements. rewrite !map_app. repeat split; now rewrite Forall_map.
  Qed.

  Lemma in_order_drop k l x r : in_order k (l ++ x :: r) -> in_order k (l ++ r).
  Proof.
    destruct k; cbn; try easy. rewrite !sorted_app. intros (S1 & S2 & S3). inversion S2; subst. repeat split; try assumption.
    revert S3. apply Forall_impl. intros y F. now inversion F.
  Qed.
  Lemma valid_drop k l n r : valid k (l ++ n :: r) -> valid k (l ++ r).
  Proof.
    intros (N & O & D). repeat split.
    - rewrite map_app in *. now apply NoDup_remove_1 in N.
    - unfold elements in *. rewrite map_app in *. now apply in_order_drop in O.
    - intros U a b x y I J. apply (D U); (apply in_app_iff in I, J); apply in_app_iff; cbn; tauto.
  Qed.
  (** Erasing takes out the named element only; its id becomes unusable, all others stay. *)
  Theorem C139_erase k c i x : valid k c -> id_at c i = Ok x ->
    exists c', id_erase c i = Ok c' /\ valid k c' /\ (exists l r, elements c = l ++ x :: r /\ elements c' = l ++ r) /\
    id_at c' i = UB /\ id_erase c' i = UB /\ forall j, j <> i -> id_at c' j = id_at c j.
  Proof.
    intros V E. pose proof V as (N & _ & _). destruct i as [a|]; [|discriminate]. unfold id_at in E. cbn [id_check assert_then] in E.
    destruct (lookup c a) as [y|] eqn:L; [|discriminate]. injection E as ->. destruct (split_lookup c a x L) as (l & r & -> & U & _ & LN).
    exists (l ++ r). assert (LR : lookup (l ++ r) a = None).
    { apply lookup_None. rewrite map_app in N |- *. cbn [map fst] in N. now apply NoDup_remove_2 in N. }
    repeat split.
    - cbn [id_erase]. now rewrite L, U.
    - rewrite map_app in *. now apply NoDup_remove_1 in N.
    - now apply (valid_drop k l (a, x) r).
    - now apply (valid_drop k l (a, x) r).
    - exists (map snd l), (map snd r). unfold elements. now rewrite !map_app.
    - unfold id_at. cbn [id_check assert_then]. now rewrite LR.
    - cbn [id_erase]. now rewrite LR.
    - intros [b|] NE; [|reflexivity]. unfold id_at. cbn [id_check assert_then]. rewrite (lookup_mid l r a x b N).
      destruct (Z.eqb_spec a b) as [->|]; [now elim NE|reflexivity].
  Qed.

  (** Search gives the first equal element of a list or hash set ... *)
  Theorem C139_find k c x : NoDup (map fst c) -> (forall u, k <> Sorted u) ->
    match id_find lt eqb k c x with
    | Some a => exists l y r, c = l ++ (a, y) :: r /\ id_at c (Some a) = Ok y /\ eqb y x = true /\ Forall (fun z => eqb z x = false) (elements l)
    | None => Forall (fun z => eqb z x = false) (elements c)
    end.
  Proof.
    intros N K. assert (E : id_find lt eqb k c x = first_node (fun y => eqb y x) c) by (destruct k; [reflexivity|now elim (K unique0)|reflexivity]).
    rewrite E. pose proof (first_node_spec (fun y => eqb y x) c) as FS. destruct (first_node _ c) as [a|].
    - destruct FS as (l & y & r & -> & P & F). exists l, y, r. split; [reflexivity|]. split; [|split; [exact P|now apply Forall_map]].
      apply names_at; [exact N|]. exists a. split; [reflexivity|]. apply in_app_iff. right. now left.
    - now apply Forall_map.
  Qed.
  (** ... and an equivalent element of a sorted container, the null id if there is none. *)
  Theorem C139_find_sorted u c x : strict_weak -> valid (Sorted u) c ->
    match id_find lt eqb (Sorted u) c x with
    | Some a => exists y, id_at c (Some a) = Ok y /\ alike (Sorted u) x y
    | None => forall y, In y (elements c) -> ~ alike (Sorted u) x y
    end.
  Proof.
    intros SW (N & O & _). cbn [id_find]. pose proof (first_node_spec (fun y => negb (lt y x)) c) as FS.
    destruct (first_node _ c) as [a|].
    - destruct FS as (l & y & r & -> & P & F).
      assert (L : lookup (l ++ (a, y) :: r) a = Some y) by (apply In_lookup; [exact N|]; apply in_app_iff; right; now left).
      rewrite L. apply negb_true_iff in P. destruct (lt x y) eqn:XY.
      + intros z I [Z1 Z2]. unfold elements in *. rewrite map_app in *. cbn [map snd] in *. apply in_app_iff in I as [I|[<-|I]].
        * apply in_map_iff in I as (n & <- & I). rewrite Forall_forall in F. specialize (F n I). apply negb_false_iff in F. congruence.
        * congruence.
        * cbn in O. apply sorted_app in O as (_ & O & _). inversion O as [|? ? _ G]; subst. rewrite Forall_forall in G. specialize (G z I). cbn in G.
          destruct SW as (_ & _ & CO). destruct (CO _ z _ XY); congruence.
      + exists y. split; [|split; assumption]. unfold id_at. cbn [id_check assert_then]. now rewrite L.
    - intros y I [_ Y]. apply in_map_iff in I as (n & <- & I). rewrite Forall_forall in FS. specialize (FS n I). apply negb_false_iff in FS. congruence.
  Qed.

  (** Erasing by value leaves exactly the other elements in their order, and in associative
      containers the ids of these elements. *)
  Lemma combine_filter_snd (p : A -> bool) (c : cont) : map snd (combine (map fst c) (filter p (map snd c))) = filter p (map snd c).
  Proof.
    assert (G : forall (xs : list A) (as_ : list Z), (length xs <= length as_)%nat -> map snd (combine as_ xs) = xs).
    { induction xs as [|x xs IH]; intros [|a as_] L; cbn in *; try lia; try reflexivity. now rewrite IH by lia. }
    apply G. rewrite map_length. rewrite <- (map_length snd c). generalize (map snd c). intros xs.
    induction xs as [|x xs IH]; cbn; [lia|]. destruct (p x); cbn; lia.
  Qed.
  Lemma filter_snd (p : A -> bool) (c : cont) : map snd (filter (fun n => p (snd n)) c) = filter p (map snd c).
  Proof. induction c as [|n c IH]; cbn; [reflexivity|]. destruct (p (snd n)); cbn; now rewrite IH. Qed.
  Lemma filter_sub (p : Z * A -> bool) (c : cont) : NoDup (map fst c) -> NoDup (map fst (filter p c)).
  Proof.
    induction c as [|n c IH]; cbn; [easy|]. intros N. inversion N as [|? ? NI ND]; subst. destruct (p n); [|auto]. cbn. constructor; [|auto].
    intros I. apply NI. apply in_map_iff in I as (m & E & I). apply filter_In in I as [I _]. apply in_map_iff. now exists m.
  Qed.
  Theorem C139_erase_value k c x : lawful k -> valid k c ->
    (k <> Sequence -> (forall y, In y (elements (erase lt eqb hash k c x)) <-> In y (elements c) /\ ~ alike k x y) /\
      (forall i y, id_at (erase lt eqb hash k c x) i = Ok y <-> id_at c i = Ok y /\ ~ alike k x y) /\
      valid k (erase lt eqb hash k c x)) /\
    (k = Sequence -> elements (erase lt eqb hash k c x) = filter (fun y => negb (eqb y x)) (elements c)).
  Proof.
    intros LA V. pose proof V as (N & O & D). split; [|intros ->; apply combine_filter_snd].
    intros K. set (p := match k with Hashed _ => same_key eqb hash x | _ => equivalent lt x end).
    assert (AP : forall y, alike k x y <-> p y = true).
    { intros y. destruct k; [now elim K|apply alike_equivalent|apply alike_same_key]. }
    assert (E : erase lt eqb hash k c x = filter (fun n => negb (p (snd n))) c) by (destruct k; [now elim K|reflexivity|reflexivity]).
    rewrite E. clear E. assert (NP : forall y, negb (p y) = true <-> ~ alike k x y).
    { intros y. rewrite negb_true_iff, AP. destruct (p y); split; congruence. }
    assert (N' := filter_sub (fun n => negb (p (snd n))) c N).
    assert (IN : forall n, In n (filter (fun n => negb (p (snd n))) c) <-> In n c /\ ~ alike k x (snd n)).
    { intros n. rewrite filter_In. now rewrite NP. }
    split; [|split].
    - intros y. unfold elements. split.
      + intros I. apply in_map_iff in I as (n & <- & I). apply IN in I as [I M]. split; [now apply in_map|exact M].
      + intros [I M]. apply in_map_iff in I as (n & <- & I). apply in_map. apply IN. now split.
    - intros i y. rewrite <- (names_at _ i y N'), <- (names_at c i y N). unfold names. split.
      + intros (a & -> & I). apply IN in I as [I M]. split; [now exists a|exact M].
      + intros [(a & -> & I) M]. exists a. split; [reflexivity|]. now apply IN.
    - repeat split; [exact N'| |].
      + destruct k; cbn [in_order]; try exact I. unfold elements. cbn in O. clear -O. unfold elements in O.
        induction c as [|n c IH]; cbn [filter map]; [constructor|]. cbn [map] in O. inversion O as [|? ? S F]; subst.
        destruct (negb (p (snd n))); [|auto]. cbn [map]. constructor; [auto|]. rewrite Forall_forall in *. intros y I. apply F.
        apply in_map_iff in I as (m & <- & I). apply filter_In in I as [I _]. now apply in_map.
      + intros U a b y z I J. apply (D U); [now apply IN in I|now apply IN in J].
  Qed.

  (** ** Histories of operations *)
  Inductive op :=
  | Emplace (order : cont -> cont) (a : Z) (x : A)
  | Erase (i : id)
  | EraseValue (x : A).
  Definition step (k : kind) (c : cont) (o : op) : outcome cont :=
    match o with
    | Emplace order a x => Ok (fst (id_emplace lt eqb hash k order a c x))
    | Erase i => id_erase c i
    | EraseValue x => Ok (erase lt eqb hash k c x)
    end.
  (** What the standard library and the caller see to: new nodes have addresses of their own, only
      living elements are erased. *)
  Definition fair (k : kind) (c : cont) (o : op) : Prop :=
    match o with
    | Emplace order a x => ~ In a (map fst c) /\ forall d, Permutation (order d) d
    | Erase i => exists x, id_at c i = Ok x
    | EraseValue x => k <> Sequence
    end.
  Inductive runs (k : kind) : cont -> list op -> cont -> Prop :=
  | runs_nil c : runs k c [] c
  | runs_cons c o c1 h c2 : fair k c o -> step k c o = Ok c1 -> runs k c1 h c2 -> runs k c (o :: h) c2.
  Definition spares (k : kind) (i : id) (x : A) (o : op) : Prop :=
    match o with Emplace _ _ _ => True | Erase j => j <> i | EraseValue y => ~ alike k y x end.

  (** Every fair operation succeeds. *)
  Theorem C139_progress k c o : lawful k -> valid k c -> fair k c o -> exists c', step k c o = Ok c' /\ valid k c'.
  Proof.
    intros LA V F. destruct o as [order a x|i|x]; cbn [step fair] in *.
    - destruct F as [F P]. destruct (C139_emplace k order a c x LA V F P) as (c' & i & [H|H] & V').
      + destruct H as [-> _]. now exists c'.
      + destruct H as [-> _]. now exists c'.
    - destruct F as [x E]. destruct (C139_erase k c i x V E) as (c' & E' & V' & _). now exists c'.
    - eexists. split; [reflexivity|]. now apply (C139_erase_value k c x LA V).
  Qed.
  (** An id names its element until the element is erased, whatever else is inserted and erased. *)
  Theorem C139_stable k c h c' i x : lawful k -> valid k c -> runs k c h c' -> id_at c i = Ok x -> Forall (spares k i x) h ->
    id_at c' i = Ok x.
  Proof.
    intros LA V R. induction R as [c|c o c1 h c2 F S R IH]; intros E SP; [exact E|]. inversion SP as [|? ? S1 S2]; subst.
    destruct (C139_progress k c o LA V F) as (c1' & S' & V1). rewrite S in S'. injection S' as <-. apply IH; [exact V1| |exact S2].
    destruct o as [order a y|j|y]; cbn [step fair spares] in *.
    - injection S as <-. destruct F as [F P]. destruct (C139_emplace k order a c y LA V F P) as (c' & j & [H|H] & _).
      + destruct H as (-> & _ & NJ & K & _). cbn [fst]. apply K; [|exact E]. intros ->. now apply (NJ x).
      + destruct H as (-> & -> & _). exact E.
    - destruct F as [z EZ]. destruct (C139_erase k c j z V EZ) as (c' & E' & _ & _ & _ & _ & K). rewrite S in E'. injection E' as <-.
      rewrite K by now apply not_eq_sym. exact E.
    - injection S as <-. now apply (C139_erase_value k c y LA V).
  Qed.

  (** Finding: erasing a value from a list moves the elements behind it to other ids.  If the first
      element is erased, its id names the second one, and the id of the last element is unusable. *)
  Theorem C139_list_erase_refuted c a x b y : valid Sequence ((a, x) :: (b, y) :: c) -> eqb x x = true -> eqb y x = false ->
    let c' := erase lt eqb hash Sequence ((a, x) :: (b, y) :: c) x in
    id_at c' (Some a) = Ok y /\ (c = [] -> id_at ((a, x) :: (b, y) :: c) (Some b) = Ok y /\ id_at c' (Some b) = UB).
  Proof.
    intros (N & _) EX EY c'. cbn [map fst] in N. inversion N as [|? ? NI _]; subst. cbn [In] in NI.
    assert (AB : (a =? b) = false) by (apply Z.eqb_neq; intros ->; apply NI; now left).
    subst c'. cbn [erase map fst snd filter]. rewrite EX, EY. cbn [negb combine]. split.
    - unfold id_at. cbn [id_check assert_then lookup]. now rewrite Z.eqb_refl.
    - intros ->. unfold id_at. cbn [id_check assert_then lookup map filter combine]. now rewrite AB, Z.eqb_refl.
  Qed.

  (** Finding: the reference that an id gives lets an element of a set be changed; the set then has
      two elements alike. *)
  Theorem C139_write_refuted a x b y : strict_weak -> lt x y = true -> a <> b ->
    valid (Sorted true) [(a, x); (b, y)] /\
    exists c', id_write [(a, x); (b, y)] (Some a) y = Ok c' /\ elements c' = [y; y] /\ ~ valid (Sorted true) c'.
  Proof.
    intros SW L NE. pose proof SW as (IR & TR & _). assert (YX : lt y x = false).
    { destruct (lt y x) eqn:E; [|reflexivity]. pose proof (TR _ _ _ L E) as Q. now rewrite IR in Q. }
    split.
    - repeat split.
      + cbn. repeat constructor; cbn; intuition.
      + cbn. repeat constructor. exact YX.
      + intros _ p q u v [[= <- <-]|[[= <- <-]|[]]] [[= <- <-]|[[= <- <-]|[]]] PQ [A1 A2]; congruence.
    - exists [(a, y); (b, y)]. unfold id_write. cbn [id_check assert_then lookup update]. rewrite Z.eqb_refl. repeat split.
      intros (_ & _ & D). apply (D eq_refl a b y y); cbn; auto.
  Qed.
  (** Writing to an element of a list changes that element only. *)
  Theorem C139_write c i x y : valid Sequence c -> id_at c i = Ok x ->
    exists c', id_write c i y = Ok c' /\ valid Sequence c' /\ id_at c' i = Ok y /\ (forall j, j <> i -> id_at c' j = id_at c j) /\
    exists l r, elements c = l ++ x :: r /\ elements c' = l ++ y :: r.
  Proof.
    intros (N & _) E. destruct i as [a|]; [|discriminate]. unfold id_at in E. cbn [id_check assert_then] in E.
    destruct (lookup c a) as [z|] eqn:L; [|discriminate]. injection E as ->. destruct (split_lookup c a x L) as (l & r & -> & _ & U & LN).
    assert (N' : NoDup (map fst (l ++ (a, y) :: r))) by (rewrite map_app in *; exact N).
    exists (l ++ (a, y) :: r). repeat split.
    - unfold id_write. cbn [id_check assert_then]. now rewrite L, U.
    - exact N'.
    - discriminate.
    - unfold id_at. cbn [id_check assert_then]. rewrite lookup_mid by exact N'. now rewrite Z.eqb_refl.
    - intros [b|] NE; [|reflexivity]. unfold id_at. cbn [id_check assert_then]. rewrite !lookup_mid by assumption.
      destruct (Z.eqb_spec a b) as [->|]; [now elim NE|reflexivity].
    - exists (map snd l), (map snd r). unfold elements. now rewrite !map_app.
  Qed.

  (** Finding: with a hash that is not the same for equal elements - as for 0.0 and -0.0 - a hash set
      finds an element and inserts it nevertheless. *)
  Theorem C139_hash_refuted order a b x y : hash x <> hash y -> eqb y x = true ->
    id_find lt eqb (Hashed true) [(a, y)] x = Some a /\
    snd (id_emplace lt eqb hash (Hashed true) order b [(a, y)] x) = (Some b, true).
  Proof.
    intros H E. split; [cbn; now rewrite E|]. cbn [id_emplace first_node]. unfold same_key. now replace (hash y =? hash x) with false by lia.
  Qed.
  (** If equal elements have equal hashes, inserting into a hash set and searching agree. *)
  Theorem C139_hash c order a x : (forall x y, eqb y x = true -> hash x = hash y) ->
    snd (id_emplace lt eqb hash (Hashed true) order a c x) =
    match id_find lt eqb (Hashed true) c x with Some b => (Some b, false) | None => (Some a, true) end.
  Proof.
    intros H. cbn [id_emplace id_find]. replace (first_node (same_key eqb hash x) c) with (first_node (fun y => eqb y x) c).
    - now destruct (first_node (fun y => eqb y x) c).
    - induction c as [|[b y] c IH]; [reflexivity|]. cbn [first_node]. rewrite IH. unfold same_key. destruct (eqb y x) eqn:E.
      + now rewrite (H _ _ E), Z.eqb_refl.
      + now rewrite andb_false_r.
  Qed.
End Spec.
Print Assumptions C139_range.
Print Assumptions C139_null.
Print Assumptions C139_stale.
Print Assumptions C139_emplace.
Print Assumptions C139_emplace_place.
Print Assumptions C139_erase.
Print Assumptions C139_find.
Print Assumptions C139_find_sorted.
Print Assumptions C139_erase_value.
Print Assumptions C139_progress.
Print Assumptions C139_stable.
Print Assumptions C139_list_erase_refuted.
Print Assumptions C139_write_refuted.
Print Assumptions C139_write.
Print Assumptions C139_hash_refuted.
Print Assumptions C139_hash.

(** ** Ids as keys *)
(** Ids of elements are totally ordered; ids are equal exactly when they name the same node. *)
Theorem C139_order : forall a b c,
  id_less (Some a) (Some a) = Ok false /\
  (id_less (Some a) (Some b) = Ok true -> id_less (Some b) (Some c) = Ok true -> id_less (Some a) (Some c) = Ok true) /\
  (a <> b -> id_less (Some a) (Some b) = Ok true \/ id_less (Some b) (Some a) = Ok true) /\
  (id_less (Some a) (Some b) = Ok true -> id_less (Some b) (Some a) = Ok false) /\
  (forall i j, id_equal i j = true <-> i = j).
Proof.
  intros a b c. unfold id_less. cbn [get_id_key bind]. repeat split.
  - now rewrite Z.ltb_irrefl.
  - intros [= H1] [= H2]. f_equal. lia.
  - intros N. destruct (Z.lt_total a b) as [L|[->|L]]; [left; f_equal; lia|easy|right; f_equal; lia].
  - intros [= H]. f_equal. lia.
  - destruct i as [x|], j as [y|]; cbn; try easy. rewrite Z.eqb_eq. congruence.
  - intros ->. destruct j; cbn; [apply Z.eqb_refl|reflexivity].
Qed.
Print Assumptions C139_order.
Lemma le_bytes_is n : forall x, is_bytes n (le_bytes n x).
Proof.
  induction n as [|n IH]; intros x; cbn [le_bytes]; [now split|]. destruct (IH (x / 256)) as [L F]. split; [cbn; now rewrite L|].
  constructor; [apply Z.mod_pos_bound; lia|exact F].
Qed.
Lemma le_bytes_value n : forall x, 0 <= x < 256 ^ Z.of_nat n -> bytes_value (le_bytes n x) = x.
Proof.
  induction n as [|n IH]; intros x H; [cbn in *; lia|]. cbn [le_bytes bytes_value].
  rewrite Nat2Z.inj_succ, Z.pow_succ_r in H by lia. rewrite IH; [pose proof (Z.div_mod x 256 ltac:(lia)); lia|].
  split; [apply Z.div_pos; lia|apply Z.div_lt_upper_bound; lia].
Qed.
(** Ids of different nodes have different hashes, whatever the seed. *)
Theorem C139_hash_of_ids : forall seed a b, 0 <= a < 2 ^ 64 -> 0 <= b < 2 ^ 64 ->
  exists h g, id_hash seed (Some a) = Ok h /\ id_hash seed (Some b) = Ok g /\ (h = g <-> a = b).
Proof.
  intros seed a b Ha Hb. unfold id_hash. cbn [get_id_key bind]. do 2 eexists. split; [reflexivity|]. split; [reflexivity|].
  split; [|now intros ->]. intros E. apply (hash_value_inj seed 8) in E; try apply le_bytes_is; [|lia].
  apply (f_equal bytes_value) in E. rewrite !le_bytes_value in E by (change (256 ^ Z.of_nat 8) with (2 ^ 64); assumption). exact E.
Qed.
Print Assumptions C139_hash_of_ids.
(** Finding: the null id cannot be a key: comparing it with [<] or hashing it is undefined. *)
Theorem C139_null_key_refuted : forall seed i,
  id_less id_null i = UB /\ (id_less i id_null = UB) /\ id_hash seed id_null = UB /\ id_equal id_null id_null = true.
Proof. intros seed [a|]; repeat split. Qed.
Print Assumptions C139_null_key_refuted.

(** ** Cases *)
Lemma ltb_weak : strict_weak Z.ltb.
Proof. repeat split; intros; lia. Qed.
Definition c0 : list (Z * Z) := [(48, 2); (16, 5); (32, 9)].
Example C139_case_stale : ~ In 64 (map fst c0) /\ id_at c0 (Some 64) = UB /\ id_next c0 (Some 32) = Ok id_end.
Proof. cbn. split; [lia|split; reflexivity]. Qed.
Example C139_case_valid : valid Z.ltb Z.eqb (fun x => x) (Sorted true) c0 /\ lawful Z.ltb Z.eqb (Sorted true).
Proof.
  split; [|exact ltb_weak]. repeat split.
  - cbn. repeat constructor; cbn; lia.
  - cbn. repeat constructor.
  - intros _ a b x y I J N [H1 H2]. cbn in I, J. destruct I as [[= <- <-]|[[= <- <-]|[[= <- <-]|[]]]], J as [[= <- <-]|[[= <- <-]|[[= <- <-]|[]]]]; easy.
Qed.
Example C139_case_range : id_range c0 = Ok [Some 48; Some 16; Some 32] /\ id_at c0 (Some 16) = Ok 5.
Proof. split; reflexivity. Qed.
Example C139_case_emplace :
  id_emplace Z.ltb Z.eqb (fun x => x) (Sorted true) (fun d => d) 64 c0 7 = ([(48, 2); (16, 5); (64, 7); (32, 9)], (Some 64, true)) /\
  id_emplace Z.ltb Z.eqb (fun x => x) (Sorted true) (fun d => d) 64 c0 5 = (c0, (Some 16, false)) /\
  id_emplace Z.ltb Z.eqb (fun x => x) (Sorted false) (fun d => d) 64 c0 5 = ([(48, 2); (16, 5); (64, 5); (32, 9)], (Some 64, true)) /\
  id_emplace Z.ltb Z.eqb (fun x => x) (Hashed true) (@rev _) 64 c0 7 = ([(64, 7); (32, 9); (16, 5); (48, 2)], (Some 64, true)) /\
  id_emplace Z.ltb Z.eqb (fun x => x) Sequence (fun d => d) 64 c0 5 = ([(48, 2); (16, 5); (32, 9); (64, 5)], (Some 64, true)).
Proof. repeat split. Qed.
Example C139_case_find : id_find Z.ltb Z.eqb (Sorted true) c0 5 = Some 16 /\ id_find Z.ltb Z.eqb (Sorted true) c0 6 = None /\
  id_find Z.ltb Z.eqb Sequence c0 9 = Some 32 /\ id_erase c0 (Some 16) = Ok [(48, 2); (32, 9)].
Proof. repeat split. Qed.
Example C139_case_runs : runs Z.ltb Z.eqb (fun x => x) (Sorted true) c0
  [Emplace (fun d => d) 64 7; Erase (Some 48); EraseValue 9; Emplace (fun d => d) 48 1] [(48, 1); (16, 5); (64, 7)] /\
  Forall (spares Z.ltb Z.eqb (fun x => x) (Sorted true) (Some 16) 5) [Emplace (fun d => d) 64 7; Erase (Some 48); EraseValue 9; Emplace (fun d => d) 48 1].
Proof.
  split.
  - eapply runs_cons; [split; [cbn; lia|intros; reflexivity]|reflexivity|].
    eapply runs_cons; [exists 2; reflexivity|reflexivity|]. eapply runs_cons; [discriminate|reflexivity|].
    eapply runs_cons; [split; [cbn; lia|intros; reflexivity]|reflexivity|]. constructor.
  - repeat constructor; cbn; try discriminate. intros [_ H]. discriminate.
Qed.
Example C139_case_list : erase Z.ltb Z.eqb (fun x => x) Sequence c0 2 = [(48, 5); (16, 9)] /\
  erase Z.ltb Z.eqb (fun x => x) (Sorted true) c0 2 = [(16, 5); (32, 9)] /\ id_write c0 (Some 16) 9 = Ok [(48, 2); (16, 9); (32, 9)].
Proof. repeat split. Qed.
(** 0.0 and -0.0 in a hash set of doubles, as bytes. *)
Example C139_case_zero : forall seed, let zero := [0; 0; 0; 0; 0; 0; 0; 0] in let minus := [0; 0; 0; 0; 0; 0; 0; 128] in
  hash_value_bytes seed minus <> hash_value_bytes seed zero.
Proof.
  intros seed zero minus E. apply (hash_value_inj seed 8) in E; [discriminate|lia| |]; (split; [reflexivity|repeat constructor; lia]).
Qed.
Example C139_case_key : id_less (Some 16) (Some 48) = Ok true /\ id_hash 0 None = UB.
Proof. split; reflexivity. Qed.
