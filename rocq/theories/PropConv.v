(** C112: conversion of values between numbers, constants, tuples, vectors and arrays. *)
From Coq Require Import ZArith Bool List Lia.
From Verif Require Import Outcome IntTypes ConvModel ConvSpec ConvProofs.
Import ListNotations.
Local Open Scope Z_scope.

(** For plain pairs of types, however nested: either the conversion is not offered and no value of
    the target has the elements of the source, or it compiles, gives exactly the value with the
    elements of the source, and fails the assertion when there is none. *)
Theorem C112_elements : forall T S q v, plain T S -> has_ty S v ->
  (can1 T q S = false /\ forall r, ~ Elems T S v r) \/
  (can1 T q S = true /\ exists f, conv1 T q S = Some f /\
     (forall r, f v = Ok r <-> Elems T S v r) /\ ((exists r, f v = Ok r) \/ f v = AssertFail)).
Proof.
  intros T S q v HP Hv. destruct (plain_good T S HP q) as [G1 G2].
  destruct (can1 T q S) eqn:E.
  - right. split; [reflexivity|]. destruct (G1 eq_refl) as (f & Ef & Hf). exists f. split; [assumption|].
    destruct (Hf v Hv) as [(r & Er & Hr) | [Er Hn]].
    + split; [|eauto]. intro r'. split.
      * intro H. assert (r' = r) by congruence. now subst.
      * intro H. now rewrite (proj1 Elems_det _ _ _ _ H _ Hr).
    + split; [|auto]. intro r'. split; [congruence|]. intro H. now apply Hn in H.
  - left. split; [reflexivity|]. now apply G2.
Qed.

(** The elements determine the result, and it is a value of the target type. *)
Theorem C112_unique : forall T S v r r', Elems T S v r -> Elems T S v r' -> r = r'.
Proof. intros T S v r r' H H'. exact (proj1 Elems_det _ _ _ _ H _ H'). Qed.
Theorem C112_typed : forall T S q f v r, plain T S -> wf_ty T -> has_ty S v ->
  conv1 T q S = Some f -> can1 T q S = true -> f v = Ok r -> has_ty T r.
Proof.
  intros T S q f v r HP HW Hv Hf Hc Hr. destruct (C112_elements T S q v HP Hv) as [[E _] | (_ & g & Eg & H & _)]; [congruence|].
  assert (g = f) by congruence. subst. apply H in Hr. now apply (proj1 Elems_typed _ _ _ _ Hr).
Qed.

(** A value converted to its own type is unchanged. *)
Theorem C112_same : forall T q v, plain T T -> has_ty T v ->
  can1 T q T = true /\ exists f, conv1 T q T = Some f /\ f v = Ok v.
Proof.
  intros T q v HP Hv. pose proof (proj1 Elems_refl _ _ Hv) as HE.
  destruct (C112_elements T T q v HP Hv) as [[_ Hn] | (Hc & f & Ef & H & _)]; [now apply Hn in HE|].
  split; [assumption|]. exists f. split; [assumption|]. now apply H.
Qed.

(** Between sequences nothing is dropped or added: the sizes are equal. *)
Theorem C112_size : forall T S q f vs r, plain T S -> has_ty S (VSeq vs) ->
  conv1 T q S = Some f -> can1 T q S = true -> f (VSeq vs) = Ok r ->
  exists rs, r = VSeq rs /\ length rs = length vs.
Proof.
  intros T S q f vs r HP Hv Hf Hc Hr. destruct (C112_elements T S q (VSeq vs) HP Hv) as [[E _] | (_ & g & Eg & H & _)]; [congruence|].
  assert (g = f) by congruence. subst. apply H in Hr. inversion Hr; subst.
  - inversion Hv; subst. destruct S; discriminate.
  - eexists. split; [reflexivity|]. eapply Elemss_length; eauto.
Qed.

(** * Findings *)
Definition vi := TVec (TInt int32).

(** The elements of a vector of vectors made from a vector of numbers are taken for sizes. *)
Theorem C112_sizes_refuted : exists T S f v r,
  can1 T QVal S = true /\ conv1 T QVal S = Some f /\ has_ty S v /\ f v = Ok r /\
  r = VSeq [VSeq [VInt 0; VInt 0]; VSeq [VInt 0; VInt 0; VInt 0]] /\ v = VSeq [VInt 2; VInt 3] /\ ~ Elems T S v r.
Proof.
  exists (TVec vi), vi. eexists. exists (VSeq [VInt 2; VInt 3]). eexists. repeat split; try reflexivity.
  - apply H_seq with [TInt int32; TInt int32]; [reflexivity|].
    repeat constructor; vm_compute; congruence.
  - intro H. inversion H as [| | | | |? ? ts ss ? ? Ht Hs HE]; subst; try discriminate. injection Ht as <-. injection Hs as <-.
    inversion HE as [|? ? ? ? ? ? ? ? HE1 HE2]; subst. inversion HE1; discriminate.
Qed.

(** The same array gives different vectors as an rvalue and as a const reference. *)
Theorem C112_const_refuted : exists T S f g v,
  conv1 T QVal S = Some f /\ conv1 T QCRef S = Some g /\ can1 T QVal S = true /\ can1 T QCRef S = true /\
  has_ty S v /\ f v = Ok (VSeq [VSeq [VInt 0; VInt 0]; VSeq [VInt 0; VInt 0; VInt 0]]) /\
  g v = Ok (VSeq [VSeq [VInt 2]; VSeq [VInt 3]]).
Proof.
  exists (TVec vi), (TArr 2 (TInt int32)). do 2 eexists. exists (VSeq [VInt 2; VInt 3]). repeat split; try reflexivity.
  apply H_seq with [TInt int32; TInt int32]; [reflexivity|]. repeat constructor; vm_compute; congruence.
Qed.

(** The test says yes, but the conversion does not compile. *)
Theorem C112_can_convert_refuted : exists T S, can1 T QVal S = true /\ conv1 T QVal S = None.
Proof. exists (TVec (TVec (TInt int64))), (TVec vi). split; reflexivity. Qed.

(** A tuple of one vector is not converted to its own type, unless the vector has one element. *)
Theorem C112_single_tuple_refuted : exists T, forall q vs, has_ty T (VSeq [VSeq vs]) -> length vs <> 1%nat ->
  can1 T q T = true /\ exists f, conv1 T q T = Some f /\ f (VSeq [VSeq vs]) = AssertFail.
Proof.
  exists (TTup [vi]). intros q vs _ H. split; [destruct q; reflexivity|]. eexists. split; [destruct q; reflexivity|].
  cbn [hd elements length]. unfold assert_then. destruct (Nat.eqb_spec 1 (length vs)); [lia | reflexivity].
Qed.

(** A negative number as the size of a vector is an exception. *)
Theorem C112_negative_size_refuted : forall T' k, -(2 ^ 31) <= k < 0 -> exists f,
  can1 (TVec (TVec T')) QVal vi = true /\ conv1 (TVec (TVec T')) QVal vi = Some f /\ has_ty vi (VSeq [VInt k]) /\ f (VSeq [VInt k]) = Throw.
Proof.
  intros T' k H. eexists. split; [reflexivity|]. split; [reflexivity|]. split.
  - apply H_seq with [TInt int32]; [reflexivity|]. repeat constructor; unfold in_ity, ilow, ihigh; cbn; lia.
  - cbn. assert (E : wrap size_type k = k + 2 ^ 64).
    { change (wrap size_type k) with ((k - 0) mod 2 ^ 64 + 0). rewrite Z.sub_0_r, <- (Z_mod_plus_full k 1 (2 ^ 64)). rewrite Z.mod_small by lia. lia. }
    rewrite E. replace (k + 2 ^ 64 <? 9223372036854775808) with false by (symmetry; apply Z.ltb_ge; lia). reflexivity.
Qed.

(** An array of one element is made from an array of another size by converting the whole. *)
Theorem C112_wrapped : forall T' q n t, n <> 1%nat -> strict q (TArr n t) = true ->
  can1 (TArr 1 T') q (TArr n t) = can1 T' q (TArr n t) /\
  forall f, conv1 T' q (TArr n t) = Some f ->
    exists g, conv1 (TArr 1 T') q (TArr n t) = Some g /\
      forall v, match f v with Ok r => g v = Ok (VSeq [r]) | Throw => g v = Throw | AssertFail => g v = AssertFail | _ => True end.
Proof.
  intros T' q n t N St.
  assert (M : sizes_match (Some 1%nat) (static_size (TArr n t)) = false) by (cbn [static_size sizes_match]; apply Nat.eqb_neq; lia).
  split.
  - cbn [can1]. rewrite St, M. reflexivity.
  - intros f E. cbn [conv1]. rewrite St, M. cbn [andb]. rewrite E. eexists. split; [reflexivity|].
    intro v. cbn beta. unfold omap. destruct (f v); try reflexivity; exact I.
Qed.
Example C112_wrapped_case : strict QRef (TArr 3 (TInt int32)) = true /\
  exists f, conv1 (TArr 1 vi) QRef (TArr 3 (TInt int32)) = Some f /\
    f (VSeq [VInt 4; VInt 5; VInt 6]) = Ok (VSeq [VSeq [VInt 4; VInt 5; VInt 6]]).
Proof. split; [reflexivity|]. eexists. split; reflexivity. Qed.

(** An empty tuple becomes zeros of any number. *)
Theorem C112_empty_tuple_refuted : forall n, can1 (TArr n (TInt int32)) QVal (TTup []) = true /\
  exists f, conv1 (TArr n (TInt int32)) QVal (TTup []) = Some f /\ f (VSeq []) = Ok (VSeq (repeat (VInt 0) n)).
Proof. intro n. split; [reflexivity|]. eexists. split; reflexivity. Qed.

(** The constant 2^32 - 1 is made from -1. *)
Theorem C112_constant_refuted : exists T S f v, can1 T QVal S = true /\ conv1 T QVal S = Some f /\ has_ty S v /\
  f v = Ok VUnit /\ v = VInt (-1) /\ T = TConst uint32 4294967295.
Proof.
  exists (TConst uint32 4294967295), (TInt int32). eexists. exists (VInt (-1)). repeat split; try reflexivity.
  constructor; vm_compute; try split; congruence.
Qed.

(** Constants that differ are found by the compiler, but only for an rvalue. *)
Theorem C112_constant_reference_refuted : forall t c s d, sgn s = sgn t -> 0 < bits t -> 0 < bits s ->
  in_ity t c -> in_ity s d -> c <> d ->
  can1 (TConst t c) QVal (TConst s d) = false /\ can1 (TConst t c) QRef (TConst s d) = true /\
  exists f, conv1 (TConst t c) QRef (TConst s d) = Some f /\ f VUnit = AssertFail.
Proof.
  intros t c s d E Ht Hs Hc Hd Hne. split; [|split; [reflexivity|]].
  - cbn [can1]. rewrite equal_ints_spec; auto. now apply Z.eqb_neq.
  - eexists. split; [reflexivity|]. cbn beta. rewrite equal_ints_spec; auto.
    now rewrite (proj2 (Z.eqb_neq d c)) by auto.
Qed.

(** A vector of tuples to an array of tuples of other types, at run time, and as a tuple of lists. *)
Definition src := TVec (TTup [TInt int32; TInt int32]).
Definition tgt := TTup [TArr 2 (TInt int64); TTup [TInt uint8; TVec (TInt int32)]].
Definition tgt_arr := TArr 2 (TTup [TInt int64; TVec (TInt int64)]).

Lemma src_plain : plain tgt src /\ plain tgt_arr src.
Proof.
  split; unfold tgt, tgt_arr, src.
  - apply P_seq; try reflexivity; try discriminate. intros n ts ss i t s Ht Hs Hti Hsi. cbn [elem_tys length] in Ht, Hs.
    destruct (Nat.eqb_spec 2 n) as [<-|]; [|discriminate]. injection Ht as <-. injection Hs as <-.
    destruct i as [|[|i]]; cbn in *; try (destruct i; discriminate); injection Hti as <-; injection Hsi as <-.
    + apply P_seq; try reflexivity; try discriminate. intros n ts ss i t s Ht Hs Hti Hsi. cbn [elem_tys length] in Ht, Hs.
      destruct (Nat.eqb_spec 2 n) as [<-|]; [|discriminate]. injection Ht as <-. injection Hs as <-.
      destruct i as [|[|i]]; cbn in *; try (destruct i; discriminate); injection Hti as <-; injection Hsi as <-; constructor.
    + apply P_seq; try reflexivity; try discriminate. intros n ts ss i t s Ht Hs Hti Hsi. cbn [elem_tys length] in Ht, Hs.
      destruct (Nat.eqb_spec 2 n) as [<-|]; [|discriminate]. injection Ht as <-. injection Hs as <-.
      destruct i as [|[|i]]; cbn in *; try (destruct i; discriminate); injection Hti as <-; injection Hsi as <-; try constructor.
      * reflexivity.
      * reflexivity.
      * intros t [= <-]. constructor.
  - apply P_seq; try reflexivity; try discriminate. intros n ts ss i t s Ht Hs Hti Hsi. cbn [elem_tys length] in Ht, Hs.
    destruct (Nat.eqb_spec 2 n) as [<-|]; [|discriminate]. injection Ht as <-. injection Hs as <-.
    assert (P : plain (TTup [TInt int64; TVec (TInt int64)]) (TTup [TInt int32; TInt int32])).
    { apply P_seq; try reflexivity; try discriminate. intros n ts ss i' t' s' Ht Hs Hti' Hsi'. cbn [elem_tys length] in Ht, Hs.
      destruct (Nat.eqb_spec 2 n) as [<-|]; [|discriminate]. injection Ht as <-. injection Hs as <-.
      destruct i' as [|[|i']]; cbn in *; try (destruct i'; discriminate); injection Hti' as <-; injection Hsi' as <-; try constructor.
      - reflexivity.
      - reflexivity.
      - intros t0 [= <-]. constructor. }
    destruct i as [|[|i]]; cbn in *; try (destruct i; discriminate); injection Hti as <-; injection Hsi as <-; exact P.
Qed.

Definition pair x y := VSeq [VInt x; VInt y].
Example C112_case :
  plain tgt src /\ plain tgt_arr src /\
  has_ty src (VSeq [pair 1 2; pair 300 4]) /\ has_ty src (VSeq [pair 1 2; pair 300 4; pair 5 6]) /\
  can1 tgt QRef src = true /\ can1 tgt_arr QCRef src = true /\
  (exists f, conv1 tgt QRef src = Some f /\
     f (VSeq [pair 1 2; pair 300 4]) = Ok (VSeq [pair 1 2; VSeq [VInt 44; VSeq [VInt 4]]]) /\
     f (VSeq [pair 1 2; pair 300 4; pair 5 6]) = AssertFail) /\
  (exists f, conv1 tgt_arr QCRef src = Some f /\
     f (VSeq [pair 1 2; pair 300 4]) = Ok (VSeq [VSeq [VInt 1; VSeq [VInt 2]]; VSeq [VInt 300; VSeq [VInt 4]]])) /\
  can1 tgt QVal (TArr 3 (TTup [TInt int32; TInt int32])) = false.
Proof.
  split; [exact (proj1 src_plain)|]. split; [exact (proj2 src_plain)|].
  assert (P : forall x y, in_ity int32 x -> in_ity int32 y -> has_ty (TTup [TInt int32; TInt int32]) (pair x y)).
  { intros x y Hx Hy. apply H_seq with [TInt int32; TInt int32]; [reflexivity|]. repeat constructor; try apply Hx; try apply Hy. }
  split; [|split].
  - eapply H_seq; [reflexivity|]. repeat constructor; apply P; vm_compute; split; congruence.
  - eapply H_seq; [reflexivity|]. repeat constructor; apply P; vm_compute; split; congruence.
  - split; [reflexivity|]. split; [reflexivity|]. split; [|split].
    + eexists. split; [reflexivity|]. split; vm_compute; reflexivity.
    + eexists. split; [reflexivity|]. vm_compute; reflexivity.
    + reflexivity.
Qed.

Print Assumptions C112_elements.
Print Assumptions C112_unique.
Print Assumptions C112_typed.
Print Assumptions C112_same.
Print Assumptions C112_size.
Print Assumptions C112_sizes_refuted.
Print Assumptions C112_const_refuted.
Print Assumptions C112_can_convert_refuted.
Print Assumptions C112_single_tuple_refuted.
Print Assumptions C112_empty_tuple_refuted.
Print Assumptions C112_constant_refuted.
Print Assumptions C112_constant_reference_refuted.
Print Assumptions C112_negative_size_refuted.
Print Assumptions C112_wrapped.
