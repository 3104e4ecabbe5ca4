(** Proofs about tuples and type lists (C56, C60). *)
From Coq Require Import ZArith List Bool Lia PeanoNat.
From Verif Require Import Outcome ListLemmas RangeProofs SeqModel.
Import ListNotations.
Local Open Scope Z_scope.

Section Tuple.
  Variable A : nat -> Type.
  Variable ops : forall i, A i -> A i -> Z.

  (** Specification: the first index with a non-zero component comparison. *)
  Lemma compare_from_spec : forall k i l r,
    (exists j, (i <= j <= i + k)%nat /\ compare_tuple_from A ops i k l r = ops j (l j) (r j)
       /\ (forall m, (i <= m < j)%nat -> ops m (l m) (r m) = 0)
       /\ ((j < i + k)%nat -> ops j (l j) (r j) <> 0)).
  Proof.
    induction k as [|k IH]; intros i l r; cbn [compare_tuple_from]; cbv zeta.
    - exists i. repeat split; try lia.
    - destruct (Z.eqb_spec (ops i (l i) (r i)) 0) as [E|E].
      + destruct (IH (S i) l r) as (j & R & C & Z0 & N). exists j. split; [lia|]. split; [exact C|].
        split; [|intro; apply N; lia]. intros m Hm. destruct (Nat.eq_dec m i) as [->|]; [exact E|].
        apply Z0. lia.
      + exists i. repeat split; try lia.
  Qed.

  Lemma compare_from_zero k i l r :
    compare_tuple_from A ops i k l r = 0 <-> forall m, (i <= m <= i + k)%nat -> ops m (l m) (r m) = 0.
  Proof.
    destruct (compare_from_spec k i l r) as (j & R & C & Z0 & N). rewrite C. split.
    - intros E m Hm. destruct (Nat.eq_dec j (i + k)) as [->|].
      + destruct (Nat.eq_dec m (i + k)) as [->|]; [assumption|]. apply Z0. lia.
      + exfalso. apply N; [lia|assumption].
    - intro H. apply H. lia.
  Qed.

  Hypothesis O : forall i, order3 (ops i).

  Lemma compare_from_anti : forall k i l r,
    Z.sgn (compare_tuple_from A ops i k l r) = - Z.sgn (compare_tuple_from A ops i k r l).
  Proof.
    induction k as [|k IH]; intros i l r; cbn [compare_tuple_from]; cbv zeta; [apply (o3_anti _ (O i))|].
    pose proof (o3_anti _ (O i) (l i) (r i)).
    destruct (Z.eqb_spec (ops i (l i) (r i)) 0), (Z.eqb_spec (ops i (r i) (l i)) 0); try lia. apply IH.
  Qed.

  Lemma compare_from_trans : forall k i l m r,
    compare_tuple_from A ops i k l m <= 0 -> compare_tuple_from A ops i k m r <= 0 ->
    compare_tuple_from A ops i k l r <= 0.
  Proof.
    induction k as [|k IH]; intros i l m r; cbn [compare_tuple_from]; cbv zeta.
    - apply (o3_trans _ (O i)).
    - pose proof (o3_eq_trans _ (O i) (l i) (m i) (r i)) as (T1 & T2 & T3).
      destruct (Z.eqb_spec (ops i (l i) (m i)) 0) as [E1|E1], (Z.eqb_spec (ops i (m i) (r i)) 0) as [E2|E2];
        intros H1 H2.
      + rewrite T1 by assumption. cbn [Z.eqb]. eapply IH; eassumption.
      + destruct (Z.eqb_spec (ops i (l i) (r i)) 0); lia.
      + destruct (Z.eqb_spec (ops i (l i) (r i)) 0); lia.
      + destruct (Z.eqb_spec (ops i (l i) (r i)) 0); lia.
  Qed.

  Variable eqs : forall i, A i -> A i -> bool.
  Lemma is_equal_tuple_ok n l r :
    is_equal_tuple A eqs n l r = true <-> forall i, (i < n)%nat -> eqs i (l i) (r i) = true.
  Proof.
    unfold is_equal_tuple.
    assert (G : forall is b, fold_left (fun b i => b && eqs i (l i) (r i)) is b = true
              <-> b = true /\ forall i, In i is -> eqs i (l i) (r i) = true).
    { induction is as [|i is IH]; intro b; cbn [fold_left].
      - split; [intros ->; split; [reflexivity|easy]|tauto].
      - rewrite IH, andb_true_iff. cbn [In]. split.
        + intros [[H1 H2] H3]. split; [assumption|]. intros j [<-|Hj]; auto.
        + intros [H1 H2]. auto. }
    rewrite G. split.
    - intros [_ H] i Hi. apply H. apply in_seq. lia.
    - intro H. split; [reflexivity|]. intros i Hi. apply in_seq in Hi. apply H. lia.
  Qed.
End Tuple.

Section Types.
  Context {T : Type}.

  Lemma type_at_ok : forall fuel (l : list T) i, (length l <= fuel)%nat -> type_at fuel l i = nth_error l i.
  Proof.
    induction fuel as [|fuel IH]; intros l i H.
    - destruct l; [|simpl in H; lia]. do 8 (destruct i as [|i]; [reflexivity|]). reflexivity.
    - do 8 (destruct l as [|? l]; [do 8 (destruct i as [|i]; [reflexivity|]); reflexivity|]).
      do 8 (destruct i as [|i]; [reflexivity|]). cbn [type_at nth_error]. apply IH. simpl in H. lia.
  Qed.

  Lemma types_concat_ok (ls : list (list T)) : types_concat ls = concat ls.
  Proof.
    assert (G : forall ls (acc : list T), types_concat_from acc ls = acc ++ concat ls).
    { induction ls0 as [|l ls0 IH]; intro acc; simpl; [now rewrite app_nil_r|].
      rewrite IH. now rewrite app_assoc. }
    destruct ls as [|l ls]; simpl; [reflexivity|]. apply G.
  Qed.

  Lemma types_prefix_ok : forall fuel (l : list T) n, (length l <= fuel)%nat ->
    types_prefix fuel l n = if Nat.leb n (length l) then Some (firstn n l) else None.
  Proof.
    induction fuel as [|fuel IH]; intros l n H.
    - destruct l; [|simpl in H; lia]. do 4 (destruct n as [|n]; [reflexivity|]). reflexivity.
    - do 4 (destruct l as [|? l]; [do 4 (destruct n as [|n]; [reflexivity|]); reflexivity|]).
      do 4 (destruct n as [|n]; [reflexivity|]). cbn [types_prefix length firstn Nat.leb].
      rewrite IH by (simpl in H; lia). destruct (Nat.leb n (length l)); [|reflexivity].
      rewrite types_concat_ok. simpl. now rewrite app_nil_r.
  Qed.

  Lemma types_slice_ok : forall fuel (l : list T) first last, (length l <= fuel)%nat ->
    (first <= last <= length l)%nat ->
    types_slice fuel l first last = Some (firstn (last - first) (skipn first l)).
  Proof.
    induction fuel as [|fuel IH]; intros l f la H R.
    - destruct l; [|simpl in H; lia]. simpl in R. replace f with 0%nat by lia. replace la with 0%nat by lia. reflexivity.
    - do 4 (destruct f as [|f];
        [cbn [types_slice skipn];
         repeat match goal with |- context [Nat.leb ?a ?b] => destruct (Nat.leb_spec a b); [|lia] end;
         rewrite types_prefix_ok by lia;
         match goal with |- context [Nat.leb ?a ?b] => destruct (Nat.leb_spec a b) end;
         [rewrite ?Nat.sub_0_r; reflexivity | simpl in *; lia]
        | destruct l as [|? l]; [simpl in R; lia|]]).
      cbn [types_slice]. destruct (Nat.leb_spec 4 la); [|lia].
      cbn [length] in *. rewrite IH by lia. cbn [skipn].
      replace (la - S (S (S (S f))))%nat with (la - 4 - f)%nat by lia. reflexivity.
  Qed.

  Lemma types_slice_first_out : forall fuel (l : list T) first last, (length l <= fuel)%nat ->
    (last < first \/ length l < last)%nat -> types_slice fuel l first last = None.
  Proof.
    induction fuel as [|fuel IH]; intros l f la H R.
    - destruct l; [|simpl in H; lia].
      do 4 (destruct f as [|f]; [cbn [types_slice length];
         try (rewrite types_prefix_ok by lia; destruct (Nat.leb_spec la (@length T [])); [simpl in *; lia|reflexivity]);
         reflexivity|]). reflexivity.
    - do 4 (destruct f as [|f];
        [cbn [types_slice];
         repeat match goal with |- context [Nat.leb ?a la] => destruct (Nat.leb_spec a la); [|reflexivity] end;
         rewrite types_prefix_ok by lia;
         match goal with |- context [Nat.leb ?a ?b] => destruct (Nat.leb_spec a b) end;
         [simpl in *; lia | reflexivity]
        | destruct l as [|? l]; [do 4 (try destruct f as [|f]; try reflexivity)|]]).
      cbn [types_slice]. destruct (Nat.leb_spec 4 la); [|reflexivity].
      cbn [length] in *. apply IH; lia.
  Qed.
End Types.
