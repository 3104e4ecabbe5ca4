(** Proofs about lazily evaluated arguments and output parameters. *)
From Coq Require Import ZArith List Bool Lia.
Import ListNotations.
From Verif Require Import LazyModel.
Open Scope Z_scope.

(** * Counting *)
Definition count_ev (p : lev -> bool) (es : list lev) : nat :=
  length (filter p es).

Definition is_call (e : lev) : bool := match e with LCall => true | _ => false end.
Definition is_move (e : lev) : bool := match e with LMove => true | _ => false end.
Definition is_destroy (e : lev) : bool :=
  match e with LDestroy => true | _ => false end.
Definition is_find (e : lev) : bool := match e with LFind => true | _ => false end.

Lemma count_ev_app : forall p a b,
  count_ev p (a ++ b) = (count_ev p a + count_ev p b)%nat.
Proof. intros. unfold count_ev. rewrite filter_app, app_length. reflexivity. Qed.

Definition is_fresh {V} (x : @lres V) : bool :=
  match x with LGot _ true => true | _ => false end.
Definition is_thrown {V} (x : @lres V) : bool :=
  match x with LThrown => true | _ => false end.

Section P.
Context {St V : Type}.
Variable call : St -> St * option V.

(** State after [n] calls and the result of call number [n]. *)
Fixpoint state_after (s : St) (n : nat) : St :=
  match n with
  | O => s
  | S m => state_after (fst (call s)) m
  end.
Definition result_of (s : St) (n : nat) : option V := snd (call (state_after s n)).

Lemma state_after_add : forall n m s,
  state_after s (n + m) = state_after (state_after s n) m.
Proof. induction n; intros; cbn; auto. Qed.

Lemma result_of_shift : forall n m s,
  result_of (state_after s n) m = result_of s (n + m).
Proof. intros. unfold result_of. rewrite state_after_add. reflexivity. Qed.

Lemma find_cons : forall (m : lmap) k v (j : Z),
  lfind ((k, v) :: m) j = if k =? j then Some v else @lfind V m j.
Proof. reflexivity. Qed.

(** * try_emplace *)
Lemma try_run : forall ks m s m' s' es xs,
  lrun (ltry_emplace call) m s ks = (m', s', es, xs) ->
  length xs = length ks /\
  Forall (eq LCall) es /\
  length es = (length (filter is_fresh xs) + length (filter is_thrown xs))%nat /\
  s' = state_after s (length es) /\
  length m' = (length m + length (filter is_fresh xs))%nat /\
  (forall k v, lfind m k = Some v -> lfind m' k = Some v) /\
  (forall k v, lfind m k = None -> lfind m' k = Some v ->
     exists i, nth_error ks i = Some k /\ nth_error xs i = Some (LGot v true)) /\
  (forall i k v b, nth_error ks i = Some k -> nth_error xs i = Some (LGot v b) ->
     lfind m' k = Some v /\
     (b = true <-> lfind m k = None /\
        forall j, (j < i)%nat -> nth_error ks j = Some k ->
                  nth_error xs j = Some LThrown)) /\
  (forall i k, nth_error ks i = Some k -> nth_error xs i = Some LThrown ->
     lfind m k = None /\
     forall j, (j < i)%nat -> nth_error ks j = Some k ->
               nth_error xs j = Some LThrown).
Proof.
  induction ks as [|k ks IH]; intros m s m' s' es xs H; cbn in H.
  - injection H as <- <- <- <-. repeat split; auto;
      try (intros; congruence); destruct i; discriminate.
  - destruct (ltry_emplace call m s k) as [[[m1 s1] e1] x] eqn:E1.
    destruct (lrun (ltry_emplace call) m1 s1 ks) as [[[m2 s2] e2] ys] eqn:E2.
    injection H as <- <- <- <-.
    destruct (IH _ _ _ _ _ _ E2) as (A1 & A2 & A3 & A4 & A5 & A6 & A7 & A8 & A9).
    unfold ltry_emplace in E1.
    destruct (lfind m k) as [w|] eqn:Fk.
    + injection E1 as <- <- <- <-.
      split; [cbn; lia|]. split; [exact A2|]. split; [cbn; lia|].
      split; [exact A4|]. split; [cbn; lia|]. split; [exact A6|].
      split; [|split].
      * intros j v N F. destruct (A7 j v N F) as (i & I1 & I2). exists (S i). auto.
      * intros [|i] j v b K X; cbn in K, X.
        -- injection K as <-. injection X as <- <-. split; [auto|].
           split; [discriminate|]. intros [C _]. congruence.
        -- destruct (A8 i j v b K X) as [B1 B2]. split; [exact B1|].
           rewrite B2. split; intros [C1 C2]; (split; [exact C1|]).
           ++ intros [|t] T1 T2; cbn in *; [congruence|]. apply C2; [lia|auto].
           ++ intros t T1 T2. apply (C2 (S t)); [lia|auto].
      * intros [|i] j K X; cbn in K, X; [discriminate|].
        destruct (A9 i j K X) as [C1 C2]. split; [exact C1|].
        intros [|t] T1 T2; cbn in *; [congruence|]. apply C2; [lia|auto].
    + destruct (call s) as [s0 [v0|]] eqn:Ec; injection E1 as <- <- <- <-.
      * assert (Es : s0 = fst (call s)) by (rewrite Ec; reflexivity).
        split; [cbn; lia|]. split; [constructor; auto|]. split; [cbn; lia|].
        split; [cbn; rewrite <- Es; exact A4|]. split; [cbn in *; lia|].
        split; [|split; [|split]].
        -- intros j v F. apply A6. rewrite find_cons.
           destruct (Z.eqb_spec k j); [congruence|exact F].
        -- intros j v N F. destruct (Z.eq_dec k j) as [<-|Nj].
           ++ exists O. split; [reflexivity|]. cbn.
              assert (G : lfind m2 k = Some v0).
              { apply A6. rewrite find_cons, Z.eqb_refl. reflexivity. }
              congruence.
           ++ destruct (A7 j v) as (i & I1 & I2); [|exact F|].
              { rewrite find_cons. destruct (Z.eqb_spec k j); [congruence|exact N]. }
              exists (S i). auto.
        -- intros [|i] j v b K X; cbn in K, X.
           ++ injection K as <-. injection X as <- <-. split.
              { apply A6. rewrite find_cons, Z.eqb_refl. reflexivity. }
              split; [|reflexivity]. intros _. split; [exact Fk|]. intros t; lia.
           ++ destruct (A8 i j v b K X) as [B1 B2]. split; [exact B1|].
              rewrite B2, find_cons. destruct (Z.eqb_spec k j) as [<-|Nj].
              ** split; [intros [C _]; discriminate|].
                 intros [_ C]. specialize (C O ltac:(lia) eq_refl). cbn in C. discriminate.
              ** split; intros [C1 C2]; (split; [exact C1|]).
                 --- intros [|t] T1 T2; cbn in *; [congruence|]. apply C2; [lia|auto].
                 --- intros t T1 T2. apply (C2 (S t)); [lia|auto].
        -- intros [|i] j K X; cbn in K, X; [discriminate|].
           destruct (A9 i j K X) as [C1 C2]. rewrite find_cons in C1.
           destruct (Z.eqb_spec k j); [discriminate|]. split; [exact C1|].
           intros [|t] T1 T2; cbn in *; [congruence|]. apply C2; [lia|auto].
      * assert (Es : s0 = fst (call s)) by (rewrite Ec; reflexivity).
        split; [cbn; lia|]. split; [constructor; auto|]. split; [cbn; lia|].
        split; [cbn; rewrite <- Es; exact A4|]. split; [cbn in *; lia|].
        split; [exact A6|]. split; [|split].
        -- intros j v N F. destruct (A7 j v N F) as (i & I1 & I2). exists (S i). auto.
        -- intros [|i] j v b K X; cbn in K, X; [discriminate|].
           destruct (A8 i j v b K X) as [B1 B2]. split; [exact B1|].
           rewrite B2. split; intros [C1 C2]; (split; [exact C1|]).
           ++ intros [|t] T1 T2; cbn in *; [auto|]. apply C2; [lia|auto].
           ++ intros t T1 T2. apply (C2 (S t)); [lia|auto].
        -- intros [|i] j K X; cbn in K, X.
           ++ injection K as <-. split; [exact Fk|]. intros t; lia.
           ++ destruct (A9 i j K X) as [C1 C2]. split; [exact C1|].
              intros [|t] T1 T2; cbn in *; [auto|]. apply C2; [lia|auto].
Qed.

(** A function that never throws is called once for each new key, in the order
    in which the keys first appear. *)
Lemma try_total : forall ks m s m' s' es xs,
  (forall t, snd (call t) <> None) ->
  lrun (ltry_emplace call) m s ks = (m', s', es, xs) ->
  exists fs : list Z,
    NoDup fs /\
    (forall k, In k fs <-> In k ks /\ lfind m k = None) /\
    (forall p q, ks = p ++ q -> exists n,
       forall k, In k (firstn n fs) <-> In k p /\ lfind m k = None) /\
    length es = length fs /\
    forall j k, nth_error fs j = Some k -> lfind m' k = result_of s j.
Proof.
  induction ks as [|k ks IH]; intros m s m' s' es xs T H; cbn in H.
  - injection H as <- <- <- <-. exists []. split; [constructor|].
    split; [intros k; cbn; tauto|]. split.
    + intros p q E. exists O. destruct p; [|discriminate]. intros k; cbn; tauto.
    + split; [reflexivity|]. intros [|j] k; discriminate.
  - destruct (ltry_emplace call m s k) as [[[m1 s1] e1] x] eqn:E1.
    destruct (lrun (ltry_emplace call) m1 s1 ks) as [[[m2 s2] e2] ys] eqn:E2.
    injection H as <- <- <- <-.
    destruct (IH _ _ _ _ _ _ T E2) as (fs & N & I & Od & L & R).
    unfold ltry_emplace in E1. destruct (lfind m k) as [w|] eqn:Fk.
    + injection E1 as <- <- <- <-. exists fs. split; [exact N|].
      split.
      { intros j. rewrite I. cbn. split; [tauto|].
        intros [[<-|A] B]; [congruence|tauto]. }
      split; [|auto]. intros [|a p] q E.
      * exists O. intros j; cbn; tauto.
      * cbn in E. injection E as -> E. destruct (Od p q E) as [n Hn]. exists n.
        intros j. rewrite Hn. cbn. split; [tauto|].
        intros [[<-|A] B]; [congruence|tauto].
    + specialize (T s). destruct (call s) as [s0 [v0|]] eqn:Ec; [|cbn in T; congruence].
      injection E1 as <- <- <- <-. exists (k :: fs).
      assert (Nk : ~ In k fs).
      { intros C. apply I in C. destruct C as [_ C]. rewrite find_cons, Z.eqb_refl in C.
        discriminate. }
      split; [constructor; auto|]. split.
      { intros j. cbn [In]. rewrite I, find_cons. destruct (Z.eqb_spec k j) as [<-|Nj].
        - split; [|tauto]. intros _. auto.
        - split; [intros [C|C]; [congruence|tauto]|]. intros [[C|C] D]; [congruence|tauto]. }
      split.
      { intros [|a p] q E.
        - exists Datatypes.O. intros j; cbn; tauto.
        - cbn in E. injection E as <- E. destruct (Od p q E) as [n Hn]. exists (S n).
          intros j. cbn [firstn In]. rewrite Hn, find_cons.
          destruct (Z.eqb_spec k j) as [<-|Nj].
          + split; [|tauto]. intros _. auto.
          + split; [intros [C|C]; [congruence|tauto]|].
            intros [[C|C] D]; [congruence|tauto]. }
      split; [cbn; lia|]. intros [|j] a Ha; cbn in Ha.
      * injection Ha as <-. unfold result_of. cbn. rewrite Ec. cbn.
        destruct (try_run _ _ _ _ _ _ _ E2) as (_ & _ & _ & _ & _ & A6 & _).
        apply A6. rewrite find_cons, Z.eqb_refl. reflexivity.
      * rewrite (R j a Ha). unfold result_of. cbn. rewrite Ec. reflexivity.
Qed.

(** * The documented alternative *)
Lemma alt_run : forall ks m s m1 s1 e1 x1 m2 s2 e2 x2,
  lrun (ltry_emplace call) m s ks = (m1, s1, e1, x1) ->
  lrun (lfind_emplace call) m s ks = (m2, s2, e2, x2) ->
  m1 = m2 /\ s1 = s2 /\ x1 = x2 /\
  count_ev is_call e2 = length e1 /\
  count_ev is_move e2 = length (filter is_fresh x1) /\
  count_ev is_destroy e2 = length (filter is_fresh x1) /\
  count_ev is_find e2 = length (filter is_fresh x1).
Proof.
  induction ks as [|k ks IH]; intros m s m1 s1 e1 x1 m2 s2 e2 x2 H G; cbn in H, G.
  - injection H as <- <- <- <-. injection G as <- <- <- <-. repeat split.
  - destruct (ltry_emplace call m s k) as [[[a1 a2] a3] a4] eqn:E1.
    destruct (lfind_emplace call m s k) as [[[b1 b2] b3] b4] eqn:E2.
    destruct (lrun (ltry_emplace call) a1 a2 ks) as [[[c1 c2] c3] c4] eqn:E3.
    destruct (lrun (lfind_emplace call) b1 b2 ks) as [[[d1 d2] d3] d4] eqn:E4.
    injection H as <- <- <- <-. injection G as <- <- <- <-.
    assert (a1 = b1 /\ a2 = b2 /\ a4 = b4 /\
            count_ev is_call b3 = length a3 /\
            count_ev is_move b3 = length (filter is_fresh [a4]) /\
            count_ev is_destroy b3 = length (filter is_fresh [a4]) /\
            count_ev is_find b3 = length (filter is_fresh [a4]))
      as (<- & <- & <- & C1 & C2 & C3 & C4).
    { unfold ltry_emplace in E1. unfold lfind_emplace in E2.
      destruct (lfind m k); [|destruct (call s) as [s0 [v0|]]];
        injection E1 as <- <- <- <-; injection E2 as <- <- <- <-; repeat split. }
    destruct (IH _ _ _ _ _ _ _ _ _ _ E3 E4) as (<- & <- & <- & D1 & D2 & D3 & D4).
    rewrite !count_ev_app, app_length.
    replace (filter is_fresh (a4 :: c4)) with (filter is_fresh [a4] ++ filter is_fresh c4)
      by (cbn; destruct (is_fresh a4); reflexivity).
    rewrite app_length. repeat split; lia.
Qed.

(** * emplace *)
Lemma emplace_run : forall ks m s m' s' es xs,
  lrun (lemplace call) m s ks = (m', s', es, xs) ->
  length xs = length ks /\
  count_ev is_call es = length ks /\ s' = state_after s (length ks) /\
  count_ev is_move es = O /\ count_ev is_find es = O /\
  (count_ev is_destroy es + length (filter is_fresh xs)
   + length (filter is_thrown xs))%nat = length ks /\
  length m' = (length m + length (filter is_fresh xs))%nat /\
  (forall k v, lfind m k = Some v -> lfind m' k = Some v) /\
  (forall k v, lfind m k = None -> lfind m' k = Some v ->
     exists i, nth_error ks i = Some k /\ nth_error xs i = Some (LGot v true)) /\
  (forall i k x, nth_error ks i = Some k -> nth_error xs i = Some x ->
     match result_of s i with
     | None => x = LThrown
     | Some v => exists w b, x = LGot w b /\ lfind m' k = Some w /\
         (b = true -> w = v) /\
         (b = true <-> lfind m k = None /\
            forall j, (j < i)%nat -> nth_error ks j = Some k ->
                      result_of s j = None)
     end).
Proof.
  induction ks as [|k ks IH]; intros m s m' s' es xs H; cbn in H.
  - injection H as <- <- <- <-. repeat split; auto;
      try (intros; congruence); destruct i; discriminate.
  - destruct (lemplace call m s k) as [[[m1 s1] e1] x] eqn:E1.
    destruct (lrun (lemplace call) m1 s1 ks) as [[[m2 s2] e2] ys] eqn:E2.
    injection H as <- <- <- <-.
    destruct (IH _ _ _ _ _ _ E2) as (A1 & A2 & A3 & A4 & A5 & A6 & A7 & A8 & A9 & A10).
    assert (Es : s1 = fst (call s)).
    { unfold lemplace in E1. destruct (call s) as [s0 [v0|]].
      - destruct (lfind m k); injection E1 as <- <- <- <-; reflexivity.
      - injection E1 as <- <- <- <-; reflexivity. }
    assert (Sh : forall i, result_of s1 i = result_of s (S i)).
    { intros i. subst s1. exact (result_of_shift 1 i s). }
    rewrite !count_ev_app, A2, A4, A5.
    unfold lemplace in E1. destruct (call s) as [s0 [v0|]] eqn:Ec.
    + assert (R0 : result_of s O = Some v0) by (unfold result_of; cbn; rewrite Ec; reflexivity).
      destruct (lfind m k) as [w|] eqn:Fk; injection E1 as <- <- <- <-.
      * split; [cbn; lia|]. split; [cbn; lia|]. split; [cbn; rewrite Ec; exact A3|].
        split; [cbn; lia|]. split; [cbn; lia|]. split; [cbn in *; lia|]. split; [cbn in *; lia|].
        split; [exact A8|]. split.
        { intros j v N F. destruct (A9 j v N F) as (i & I1 & I2). exists (S i). auto. }
        intros [|i] j x K X; cbn in K, X.
        -- injection K as <-. injection X as <-. rewrite R0. exists w, false.
           split; [reflexivity|]. split; [auto|]. split; [discriminate|].
           split; [discriminate|]. intros [C _]. congruence.
        -- specialize (A10 i j x K X). rewrite Sh in A10. destruct (result_of s (S i)) as [v|]; [|exact A10].
           destruct A10 as (w' & b & B1 & B2 & B3 & B4). exists w', b. split; [exact B1|]. split; [exact B2|].
           split; [exact B3|]. rewrite B4. split; intros [C1 C2]; (split; [exact C1|]).
           ++ intros [|t] T1 T2; cbn in T2; [congruence|]. rewrite <- Sh. apply C2; [lia|auto].
           ++ intros t T1 T2. rewrite Sh. apply C2; [lia|auto].
      * split; [cbn; lia|]. split; [cbn; lia|]. split; [cbn; rewrite Ec; exact A3|].
        split; [cbn; lia|]. split; [cbn; lia|]. split; [cbn in *; lia|]. split; [cbn in *; lia|].
        split; [|split].
        { intros j v F. apply A8. rewrite find_cons. destruct (Z.eqb_spec k j); [congruence|exact F]. }
        { intros j v N F. destruct (Z.eq_dec k j) as [<-|Nj].
          - exists O. split; [reflexivity|]. cbn.
            assert (G : lfind m2 k = Some v0) by (apply A8; rewrite find_cons, Z.eqb_refl; reflexivity).
            congruence.
          - destruct (A9 j v) as (i & I1 & I2); [|exact F|].
            { rewrite find_cons. destruct (Z.eqb_spec k j); [congruence|exact N]. }
            exists (S i). auto. }
        intros [|i] j x K X; cbn in K, X.
        -- injection K as <-. injection X as <-. rewrite R0. exists v0, true.
           split; [reflexivity|]. split; [apply A8; rewrite find_cons, Z.eqb_refl; reflexivity|].
           split; [auto|]. split; [|reflexivity]. intros _. split; [exact Fk|]. intros t; lia.
        -- specialize (A10 i j x K X). rewrite Sh in A10. destruct (result_of s (S i)) as [v|]; [|exact A10].
           destruct A10 as (w' & b & B1 & B2 & B3 & B4). exists w', b. split; [exact B1|]. split; [exact B2|].
           split; [exact B3|]. rewrite B4, find_cons. destruct (Z.eqb_spec k j) as [<-|Nj].
           ++ split; [intros [C _]; discriminate|].
              intros [_ C]. specialize (C O ltac:(lia) eq_refl). congruence.
           ++ split; intros [C1 C2]; (split; [exact C1|]).
              ** intros [|t] T1 T2; cbn in T2; [congruence|]. rewrite <- Sh. apply C2; [lia|auto].
              ** intros t T1 T2. rewrite Sh. apply C2; [lia|auto].
    + assert (R0 : result_of s O = None) by (unfold result_of; cbn; rewrite Ec; reflexivity).
      injection E1 as <- <- <- <-.
      split; [cbn; lia|]. split; [cbn; lia|]. split; [cbn; rewrite Ec; exact A3|].
      split; [cbn; lia|]. split; [cbn; lia|]. split; [cbn in *; lia|]. split; [cbn in *; lia|].
      split; [exact A8|]. split.
      { intros j v N F. destruct (A9 j v N F) as (i & I1 & I2). exists (S i). auto. }
      intros [|i] j x K X; cbn in K, X.
      * injection X as <-. rewrite R0. reflexivity.
      * specialize (A10 i j x K X). rewrite Sh in A10. destruct (result_of s (S i)) as [v|]; [|exact A10].
        destruct A10 as (w' & b & B1 & B2 & B3 & B4). exists w', b. split; [exact B1|]. split; [exact B2|].
        split; [exact B3|]. rewrite B4. split; intros [C1 C2]; (split; [exact C1|]).
        -- intros [|t] T1 T2; cbn in T2; [exact R0|]. rewrite <- Sh. apply C2; [lia|auto].
        -- intros t T1 T2. rewrite Sh. apply C2; [lia|auto].
Qed.

(** * Conversions *)
Lemma lset_nth_same : forall l i (s : St), (i < length l)%nat ->
  nth_error (lset l i s) i = Some s.
Proof. induction l; intros [|i] s H; cbn in *; try lia; auto. apply IHl. lia. Qed.

Lemma lset_nth_other : forall l i j (s : St), i <> j ->
  nth_error (lset l i s) j = nth_error l j.
Proof.
  induction l; intros [|i] [|j] s H; cbn; try congruence; auto.
Qed.

Lemma lset_length : forall l i (s : St), length (lset l i s) = length l.
Proof. induction l; intros [|i] s; cbn; auto. Qed.

Lemma converts_ref : forall n objs i s,
  nth_error objs i = Some s ->
  exists objs', lz_converts call n objs (LRef i)
                = Some (objs', LRef i, map (result_of s) (seq 0 n)) /\
    length objs' = length objs /\
    nth_error objs' i = Some (state_after s n) /\
    forall j, j <> i -> nth_error objs' j = nth_error objs j.
Proof.
  induction n; intros objs i s H.
  - exists objs. repeat split; auto.
  - cbn [lz_converts lz_convert]. rewrite H. destruct (call s) as [s0 r] eqn:Ec.
    assert (L : (i < length objs)%nat) by (apply nth_error_Some; congruence).
    destruct (IHn (lset objs i s0) i s0) as (objs' & A & B & C & D).
    { apply lset_nth_same. exact L. }
    rewrite A. exists objs'. rewrite lset_length in B. split; [|split; [|split]].
    + cbn [seq map]. rewrite <- seq_shift, map_map. unfold result_of at 2. cbn.
      rewrite Ec. cbn. do 3 f_equal. apply map_ext. intros a.
      unfold result_of. cbn. rewrite Ec. reflexivity.
    + exact B.
    + cbn. rewrite Ec. exact C.
    + intros j N. rewrite D, lset_nth_other; auto.
Qed.

Lemma converts_own : forall n objs s,
  lz_converts call n objs (LOwn s)
  = Some (objs, LOwn (state_after s n), map (result_of s) (seq 0 n)).
Proof.
  induction n; intros objs s; [reflexivity|].
  cbn [lz_converts lz_convert]. destruct (call s) as [s0 r] eqn:Ec.
  rewrite IHn. cbn [seq map]. rewrite <- seq_shift, map_map. cbn.
  unfold result_of at 2. cbn. rewrite Ec. cbn. do 3 f_equal.
  apply map_ext. intros a. unfold result_of. cbn. rewrite Ec. reflexivity.
Qed.

End P.

(** * Output parameters *)
Lemma zset_nth_same : forall l i v, (i < length l)%nat ->
  nth_error (zset l i v) i = Some v.
Proof. induction l; intros [|i] v H; cbn in *; try lia; auto. apply IHl. lia. Qed.

Lemma zset_nth_other : forall l i j v, i <> j ->
  nth_error (zset l i v) j = nth_error l j.
Proof. induction l; intros [|i] [|j] v H; cbn; try congruence; auto. Qed.

Lemma zset_length : forall l i v, length (zset l i v) = length l.
Proof. induction l; intros [|i] v; cbn; auto. Qed.

Lemma ostep_facts : forall mem ws o mem' ws' x,
  ostep mem ws o = Some (mem', ws', x) ->
  length mem' = length mem /\
  (exists t, ws' = ws ++ t) /\
  (Forall (fun w => (w_cell w < length mem)%nat) ws ->
   Forall (fun w => (w_cell w < length mem)%nat) ws') /\
  forall c, (forall w, In w ws -> w_cell w <> c) ->
            nth_error mem' c = nth_error mem c.
Proof.
  intros mem ws o mem' ws' x H.
  assert (K : forall w (u : owrap), nth_error ws w = Some u -> forall c,
    (forall w0, In w0 ws -> w_cell w0 <> c) -> w_cell u <> c).
  { intros w u Hu c Hc. apply Hc. eapply nth_error_In. exact Hu. }
  destruct o; cbn in H.
  - destruct (nth_error mem x0) eqn:E; [|discriminate]. injection H as <- <- <-.
    split; [reflexivity|]. split; [eauto|]. split; [|auto].
    intros F. apply Forall_app. split; [exact F|]. constructor; [|constructor].
    cbn. apply nth_error_Some. congruence.
  - destruct (nth_error ws w) as [u|] eqn:E; [|discriminate].
    destruct (wrap_from k (w_kind u)); [|discriminate]. injection H as <- <- <-.
    split; [reflexivity|]. split; [eauto|]. split; [|auto].
    intros F. apply Forall_app. split; [exact F|]. constructor; [|constructor].
    cbn. rewrite Forall_forall in F. apply F. eapply nth_error_In. exact E.
  - destruct (nth_error ws w) as [u|] eqn:E; [|discriminate]. injection H as <- <- <-.
    split; [apply zset_length|]. split; [exists []; rewrite app_nil_r; reflexivity|].
    split; [auto|]. intros c Hc. apply zset_nth_other. eapply K; eauto.
  - destruct (nth_error ws w) as [a|] eqn:E; [|discriminate].
    destruct (nth_error ws u) as [b|] eqn:E'; [|discriminate].
    destruct (nth_error mem (w_cell b)); [|discriminate]. injection H as <- <- <-.
    split; [apply zset_length|]. split; [exists []; rewrite app_nil_r; reflexivity|].
    split; [auto|]. intros c Hc. apply zset_nth_other. eapply K; eauto.
  - destruct (nth_error ws w) as [u|] eqn:E; [|discriminate]. injection H as <- <- <-.
    split; [reflexivity|]. split; [exists []; rewrite app_nil_r; reflexivity|]. auto.
  - destruct (nth_error ws w) as [u|] eqn:E; [|discriminate]. injection H as <- <- <-.
    split; [apply zset_length|]. split; [exists []; rewrite app_nil_r; reflexivity|].
    split; [auto|]. intros c Hc. apply zset_nth_other. eapply K; eauto.
Qed.

Lemma orun_facts : forall os mem ws mem' ws' xs,
  orun mem ws os = Some (mem', ws', xs) ->
  length mem' = length mem /\
  length xs = length os /\
  (exists t, ws' = ws ++ t) /\
  (Forall (fun w => (w_cell w < length mem)%nat) ws ->
   Forall (fun w => (w_cell w < length mem)%nat) ws') /\
  forall c, (forall w, In w ws' -> w_cell w <> c) ->
            nth_error mem' c = nth_error mem c.
Proof.
  induction os as [|o os IH]; intros mem ws mem' ws' xs H; cbn in H.
  - injection H as <- <- <-. repeat split; auto. exists []. rewrite app_nil_r. reflexivity.
  - destruct (ostep mem ws o) as [[[m1 w1] x]|] eqn:E; [|discriminate].
    destruct (orun m1 w1 os) as [[[m2 w2] ys]|] eqn:E2; [|discriminate].
    injection H as <- <- <-.
    destruct (ostep_facts _ _ _ _ _ _ E) as (A & (t & T) & B & C).
    destruct (IH _ _ _ _ _ E2) as (A' & L' & (t' & T') & B' & C').
    split; [congruence|]. split; [cbn; congruence|].
    split; [exists (t ++ t'); rewrite T', T, app_assoc; reflexivity|].
    split; [intros F; rewrite <- A; apply B'; rewrite A; auto|].
    intros c Hc. rewrite (C' c Hc). apply C. intros w Hw. apply Hc.
    rewrite T'. apply in_or_app. left. rewrite T. apply in_or_app. left. exact Hw.
Qed.

(** Programs over plain variables: every use of a wrapper is a use of the
    variable that the wrapper was built for. *)
Definition fset (f : nat -> option Z) (c : nat) (v : option Z) : nat -> option Z :=
  fun d => if Nat.eqb d c then v else f d.

Definition plain_step (cell : nat -> nat) (f : nat -> option Z) (o : oop)
  : (nat -> option Z) * option Z :=
  match o with
  | OpNew _ _ | OpPass _ _ => (f, None)
  | OpAssign w v => (fset f (cell w) (Some v), Some v)
  | OpAssignWrap w u => (fset f (cell w) (f (cell u)), f (cell u))
  | OpRead w => (f, f (cell w))
  | OpArrow w v => (fset f (cell w) (Some v), None)
  end.

Fixpoint plain_run (cell : nat -> nat) (f : nat -> option Z) (os : list oop)
  : (nat -> option Z) * list (option Z) :=
  match os with
  | [] => (f, [])
  | o :: r =>
      let (f1, x) := plain_step cell f o in
      let (f2, xs) := plain_run cell f1 r in
      (f2, x :: xs)
  end.

Lemma zset_fset : forall mem c v d, (c < length mem)%nat ->
  nth_error (zset mem c v) d = fset (nth_error mem) c (Some v) d.
Proof.
  intros mem c v d H. unfold fset. destruct (Nat.eqb_spec d c) as [->|N].
  - apply zset_nth_same. exact H.
  - apply zset_nth_other. congruence.
Qed.

Definition cell_of (ws : list owrap) (w : nat) : nat :=
  match nth_error ws w with Some u => w_cell u | None => O end.

Lemma cell_of_app : forall ws t w u, nth_error ws w = Some u ->
  cell_of (ws ++ t) w = w_cell u.
Proof.
  intros ws t w u H. unfold cell_of. rewrite nth_error_app1, H; [reflexivity|].
  apply nth_error_Some. congruence.
Qed.

Lemma step_plain : forall mem ws o mem' ws' x t f,
  Forall (fun w => (w_cell w < length mem)%nat) ws ->
  ostep mem ws o = Some (mem', ws', x) ->
  (forall c, nth_error mem c = f c) ->
  (forall c, nth_error mem' c = fst (plain_step (cell_of (ws' ++ t)) f o) c) /\
  x = snd (plain_step (cell_of (ws' ++ t)) f o).
Proof.
  intros mem ws o mem' ws' x t f F H E.
  assert (G : forall w u, nth_error ws w = Some u -> (w_cell u < length mem)%nat).
  { intros w u Hu. rewrite Forall_forall in F. apply F. eapply nth_error_In, Hu. }
  assert (FS : forall c v d, (c < length mem)%nat ->
    nth_error (zset mem c v) d = fset f c (Some v) d).
  { intros c v d Hc. rewrite zset_fset by exact Hc. unfold fset. rewrite E. reflexivity. }
  destruct o; cbn in H.
  - destruct (nth_error mem x0); [|discriminate]. injection H as <- <- <-. split; auto.
  - destruct (nth_error ws w); [|discriminate].
    destruct (wrap_from k (w_kind o)); [|discriminate]. injection H as <- <- <-. split; auto.
  - destruct (nth_error ws w) as [u|] eqn:Hu; [|discriminate]. injection H as <- <- <-.
    cbn [plain_step]. rewrite (cell_of_app _ _ _ _ Hu). cbn [fst snd].
    split; [intros c; apply FS; eauto|]. apply zset_nth_same. eauto.
  - destruct (nth_error ws w) as [a|] eqn:Ha; [|discriminate].
    destruct (nth_error ws u) as [b|] eqn:Hb; [|discriminate].
    destruct (nth_error mem (w_cell b)) as [v|] eqn:Hv; [|discriminate].
    injection H as <- <- <-. cbn [plain_step].
    rewrite (cell_of_app _ _ _ _ Ha), (cell_of_app _ _ _ _ Hb). cbn [fst snd].
    rewrite <- (E (w_cell b)), Hv. split; [intros c; apply FS; eauto|].
    apply zset_nth_same. eauto.
  - destruct (nth_error ws w) as [u|] eqn:Hu; [|discriminate]. injection H as <- <- <-.
    cbn [plain_step]. rewrite (cell_of_app _ _ _ _ Hu). cbn [fst snd]. split; auto.
  - destruct (nth_error ws w) as [u|] eqn:Hu; [|discriminate]. injection H as <- <- <-.
    cbn [plain_step]. rewrite (cell_of_app _ _ _ _ Hu). cbn [fst snd].
    split; [intros c; apply FS; eauto|reflexivity].
Qed.

Lemma run_plain : forall os mem ws mem' ws' xs t f,
  Forall (fun w => (w_cell w < length mem)%nat) ws ->
  orun mem ws os = Some (mem', ws', xs) ->
  (forall c, nth_error mem c = f c) ->
  (forall c, nth_error mem' c = fst (plain_run (cell_of (ws' ++ t)) f os) c) /\
  xs = snd (plain_run (cell_of (ws' ++ t)) f os).
Proof.
  induction os as [|o os IH]; intros mem ws mem' ws' xs t f F H E; cbn in H.
  - injection H as <- <- <-. split; auto.
  - destruct (ostep mem ws o) as [[[m1 w1] x]|] eqn:E1; [|discriminate].
    destruct (orun m1 w1 os) as [[[m2 w2] ys]|] eqn:E2; [|discriminate].
    injection H as <- <- <-.
    destruct (ostep_facts _ _ _ _ _ _ E1) as (A & _ & B & _).
    destruct (orun_facts _ _ _ _ _ _ E2) as (_ & _ & (t' & T') & _ & _).
    destruct (step_plain _ _ _ _ _ _ (t' ++ t) f F E1 E) as [P1 P2].
    assert (W : w2 ++ t = w1 ++ t' ++ t) by (rewrite T', app_assoc; reflexivity).
    rewrite <- W in P1, P2.
    destruct (IH m1 w1 m2 w2 ys t (fst (plain_step (cell_of (w2 ++ t)) f o)))
      as [Q1 Q2]; [rewrite A; auto|exact E2|exact P1|].
    cbn [plain_run]. destruct (plain_step (cell_of (w2 ++ t)) f o) as [f1 y].
    cbn [fst snd] in *. destruct (plain_run (cell_of (w2 ++ t)) f1 os) as [f2 zs].
    cbn [fst snd] in *. split; [exact Q1|congruence].
Qed.

(** Kinds along a chain of conversions. *)
Lemma run_pass_kind : forall os mem ws mem' ws' xs,
  orun mem ws os = Some (mem', ws', xs) ->
  forall p k w q, os = p ++ OpPass k w :: q ->
  exists n u u',
    nth_error ws' w = Some u /\ nth_error ws' n = Some u' /\ (w < n)%nat /\
    w_cell u' = w_cell u /\ w_kind u' = k /\ (k = KInout -> w_kind u = KInout).
Proof.
  induction os as [|o os IH]; intros mem ws mem' ws' xs H p k w q E.
  - destruct p; discriminate.
  - cbn in H. destruct (ostep mem ws o) as [[[m1 w1] x]|] eqn:E1; [|discriminate].
    destruct (orun m1 w1 os) as [[[m2 w2] ys]|] eqn:E2; [|discriminate].
    injection H as <- <- <-. destruct p as [|a p]; cbn in E; injection E as -> E.
    + subst os. cbn in E1. destruct (nth_error ws w) as [u|] eqn:Hu; [|discriminate].
      destruct (wrap_from k (w_kind u)) eqn:Hk; [|discriminate].
      injection E1 as <- <- <-.
      destruct (orun_facts _ _ _ _ _ _ E2) as (_ & _ & (t & T) & _ & _).
      assert (L : (w < length ws)%nat) by (apply nth_error_Some; congruence).
      exists (length ws), u, (MkWrap k (w_cell u)). rewrite T, <- app_assoc.
      split; [rewrite nth_error_app1; auto|].
      split; [rewrite nth_error_app2, Nat.sub_diag by lia; reflexivity|].
      split; [exact L|]. split; [reflexivity|]. split; [reflexivity|].
      intros ->. destruct (w_kind u); [discriminate|reflexivity].
    + eapply IH; eauto.
Qed.
