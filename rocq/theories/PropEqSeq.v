(** C119: equality of sequences. *)
From Coq Require Import ZArith List Bool Lia.
From Verif Require Import Outcome IntTypes IterModel IterProofs EqSeqModel.
Import ListNotations.
Local Open Scope Z_scope.

(** The elements of a sequence with their types. *)
Definition elements (s : sequence) : list tval :=
  match s with Range t xs => map (fun x => {| tty := t; tz := x |}) xs | Tup xs => xs end.
(** Same length and every pair of elements compares equal by ==. *)
Definition pairwise (l r : sequence) : Prop := Forall2 (fun x y => teq x y = true) (elements l) (elements r).

Lemma common_sym a b : common a b = common b a.
Proof.
  destruct a as [m s], b as [n t]. unfold common. cbn [bits sgn].
  destruct s, t; cbn [Bool.eqb]; try reflexivity;
    destruct (m <? n) eqn:A, (n <? m) eqn:B; try reflexivity; try lia; f_equal; lia.
Qed.
Lemma teq_sym x y : teq x y = teq y x.
Proof. unfold teq, tcmp. rewrite common_sym. apply Z.eqb_sym. Qed.
Lemma tne_teq x y : tne x y = negb (teq x y).
Proof. reflexivity. Qed.

Lemma Forall2_impl2 {A B} (R T : A -> B -> Prop) l r : (forall x y, R x y -> T x y) -> Forall2 R l r -> Forall2 T l r.
Proof. intros H F. induction F; constructor; auto. Qed.
Lemma Forall2_len {A B} (R : A -> B -> Prop) l r : Forall2 R l r -> length l = length r.
Proof. intros F. induction F; cbn; congruence. Qed.
Lemma Forall2_swap {A B} (R : A -> B -> Prop) l r : Forall2 R l r -> Forall2 (fun y x => R x y) r l.
Proof. intros F. induction F; constructor; auto. Qed.
Lemma nth_skipn {A} (l : list A) i x : nth_error l i = Some x -> skipn i l = x :: skipn (S i) l.
Proof. revert i. induction l as [|w l IH]; intros [|i] E; cbn in *; try discriminate; [congruence|]. now apply IH. Qed.
Lemma nth_firstn {A} (l : list A) i x : nth_error l i = Some x -> firstn (S i) l = firstn i l ++ [x].
Proof.
  revert i. induction l as [|w l IH]; intros [|i] E; cbn in *; try discriminate; [congruence|]. f_equal. now apply IH.
Qed.

(** What a function answers if it decides [P]. *)
Definition decides (o : outcome bool) (P : Prop) : Prop := exists b, o = Ok b /\ (b = true <-> P).

Lemma ranges_loop_ok t xs u ys k : forall i, (length xs = length ys)%nat -> (i + k = length xs)%nat ->
  decides (ranges_loop t xs u ys i k)
    (Forall2 (fun x y => teq x y = true) (skipn i (elements (Range t xs))) (skipn i (elements (Range u ys)))).
Proof.
  cbn [elements]. induction k as [|k IH]; intros i L E.
  - exists true. split; [reflexivity|]. split; [intros _|reflexivity].
    rewrite !skipn_all2 by (rewrite map_length; lia). constructor.
  - cbn [ranges_loop]. unfold index.
    destruct (nth_error xs i) as [x|] eqn:Ex; [|apply nth_error_None in Ex; lia].
    destruct (nth_error ys i) as [y|] eqn:Ey; [|apply nth_error_None in Ey; lia]. cbn [bind].
    assert (Kx : nth_error (map (fun x => {| tty := t; tz := x |}) xs) i = Some {| tty := t; tz := x |}).
    { now rewrite nth_error_map, Ex. }
    assert (Ky : nth_error (map (fun x => {| tty := u; tz := x |}) ys) i = Some {| tty := u; tz := y |}).
    { now rewrite nth_error_map, Ey. }
    rewrite (nth_skipn _ _ _ Kx), (nth_skipn _ _ _ Ky), tne_teq.
    destruct (teq {| tty := t; tz := x |} {| tty := u; tz := y |}) eqn:T; cbn [negb].
    + destruct (IH (S i) L ltac:(lia)) as (b & -> & Hb). exists b. split; [reflexivity|]. rewrite Hb. split; intros H.
      * now constructor.
      * now inversion H.
    + exists false. split; [reflexivity|]. split; [discriminate|]. intros H. inversion H. congruence.
Qed.
Lemma and_fold_ok (xs ys : list tval) n cmp : (n <= length xs)%nat -> (n <= length ys)%nat ->
  (forall i x y, nth_error xs i = Some x -> nth_error ys i = Some y -> cmp i = Ok (teq x y)) ->
  decides (and_fold cmp n) (Forall2 (fun x y => teq x y = true) (firstn n xs) (firstn n ys)).
Proof.
  intros Lx Ly C. induction n as [|n IH].
  - exists true. split; [reflexivity|]. split; [intros _; constructor|reflexivity].
  - destruct (IH ltac:(lia) ltac:(lia)) as (b & E & Hb). cbn [and_fold]. rewrite E. cbn [bind].
    destruct (nth_error xs n) as [x|] eqn:Ex; [|apply nth_error_None in Ex; lia].
    destruct (nth_error ys n) as [y|] eqn:Ey; [|apply nth_error_None in Ey; lia].
    rewrite (nth_firstn _ _ _ Ex), (nth_firstn _ _ _ Ey), (C n x y Ex Ey).
    assert (K : Forall2 (fun x y => teq x y = true) (firstn n xs ++ [x]) (firstn n ys ++ [y])
      <-> Forall2 (fun x y => teq x y = true) (firstn n xs) (firstn n ys) /\ teq x y = true).
    { split.
      - intros H. apply Forall2_app_inv_l in H as (l1 & l2 & H1 & H2 & Eq).
        inversion H2 as [|? z ? l3 Hz H3]; subst. inversion H3; subst.
        apply app_inj_tail in Eq as [<- <-]. auto.
      - intros [H1 H2]. apply Forall2_app; auto. }
    unfold decides. setoid_rewrite K. destruct b.
    + exists (teq x y). split; [reflexivity|]. tauto.
    + exists false. split; [reflexivity|]. split; [discriminate|]. tauto.
Qed.

Lemma and_fold_all (xs ys : list tval) cmp : length ys = length xs ->
  (forall i x y, nth_error xs i = Some x -> nth_error ys i = Some y -> cmp i = Ok (teq x y)) ->
  decides (and_fold cmp (length xs)) (Forall2 (fun x y => teq x y = true) xs ys).
Proof.
  intros E C. destruct (and_fold_ok xs ys (length xs) cmp ltac:(lia) ltac:(lia) C) as (b & Eb & Hb).
  rewrite firstn_all, <- E, firstn_all in Hb. now exists b.
Qed.

(** All of the overloads decide the same: equal lengths and equal elements. No element outside of a
    sequence is read. *)
Theorem C119_sequence : forall l r, exists b, is_equal_sequence l r = Ok b /\ (b = true <-> pairwise l r).
Proof.
  intros l r.
  assert (TR : forall xs u ys, decides (equal_tuple_range xs u ys) (pairwise (Tup xs) (Range u ys))).
  { intros xs u ys. unfold equal_tuple_range, pairwise. cbn [elements].
    destruct (Nat.eqb_spec (length ys) (length xs)) as [E|E]; cbn [negb].
    - apply and_fold_all; [now rewrite map_length|]. intros i x y Ex Ey. unfold get, index. rewrite Ex.
      rewrite nth_error_map in Ey. destruct (nth_error ys i) as [z|]; [|discriminate]. cbn in Ey |- *. now injection Ey as <-.
    - exists false. split; [reflexivity|]. split; [discriminate|]. intros F. apply Forall2_len in F.
      rewrite map_length in F. congruence. }
  destruct l as [t xs|xs], r as [u ys|ys]; cbn [is_equal_sequence].
  - unfold equal_ranges, pairwise. destruct (Nat.eqb_spec (length ys) (length xs)) as [E|E]; cbn [negb].
    + apply (ranges_loop_ok t xs u ys (length xs) 0); auto.
    + exists false. split; [reflexivity|]. split; [discriminate|]. cbn [elements]. intros F. apply Forall2_len in F.
      rewrite !map_length in F. congruence.
  - destruct (TR ys t xs) as (b & Eb & Hb). exists b. split; [exact Eb|]. rewrite Hb. unfold pairwise. split; intros H.
    + apply Forall2_swap in H. eapply Forall2_impl2; [|exact H]. intros a c Hac. now rewrite teq_sym.
    + apply Forall2_swap in H. eapply Forall2_impl2; [|exact H]. intros a c Hac. now rewrite teq_sym.
  - apply TR.
  - unfold equal_tuples, pairwise. cbn [elements]. destruct (Nat.eqb_spec (length xs) (length ys)) as [E|E]; cbn [negb].
    + apply and_fold_all; [auto|]. intros i x y Ex Ey. unfold get. now rewrite Ex, Ey.
    + exists false. split; [reflexivity|]. split; [discriminate|]. intros F. apply Forall2_len in F. congruence.
Qed.

(** Equality is symmetric, whatever the kinds and types, and holds of a sequence and itself. *)
Theorem C119_symmetric : forall l r, is_equal_sequence l r = is_equal_sequence r l.
Proof.
  intros l r. destruct (C119_sequence l r) as (b & -> & Hb), (C119_sequence r l) as (c & -> & Hc).
  f_equal. apply eq_true_iff_eq. rewrite Hb, Hc. unfold pairwise.
  split; intros H; apply Forall2_swap in H; (eapply Forall2_impl2; [|exact H]); intros x y K; now rewrite teq_sym.
Qed.
Theorem C119_reflexive : forall l, is_equal_sequence l l = Ok true.
Proof.
  intros l. destruct (C119_sequence l l) as (b & -> & Hb). f_equal. apply Hb. unfold pairwise.
  induction (elements l) as [|x xs IH]; constructor; auto. unfold teq, tcmp. apply Z.eqb_refl.
Qed.

(** Values of the integer types of C++, both nonnegative or with a signed common type. *)
Definition value (x : tval) : Prop := ctype (tty x) /\ in_ity (tty x) (tz x).
Definition comparable (x y : tval) : Prop :=
  value x /\ value y /\ (sgn (common (promote (tty x)) (promote (tty y))) = true \/ 0 <= tz x /\ 0 <= tz y).
Lemma teq_comparable x y : comparable x y -> teq x y = (tz x =? tz y).
Proof.
  intros ((Cx & Ix) & (Cy & Iy) & [S|[X Y]]); [|now apply tcmp_nonneg].
  unfold teq, tcmp, tconv.
  destruct (promote_ctype _ Cx) as (Px & Px32 & _), (promote_ctype _ Cy) as (Py & Py32 & _).
  pose proof (promote_in _ _ Cx Ix). pose proof (promote_in _ _ Cy Iy).
  destruct (common_cases (promote (tty x)) (promote (tty y))) as ((B1 & B2) & _ & Sc). set (C := common _ _) in *.
  rewrite !wrap_id; auto; try lia.
  - apply (in_signed (promote (tty y))); auto; try lia. apply (Sc S).
  - apply (in_signed (promote (tty x))); auto; try lia. apply (Sc S).
Qed.
(** Such sequences are equal exactly if they have the same numbers. *)
Theorem C119_numbers : forall l r,
  (forall x y, In x (elements l) -> In y (elements r) -> comparable x y) ->
  exists b, is_equal_sequence l r = Ok b /\ (b = true <-> map tz (elements l) = map tz (elements r)).
Proof.
  intros l r C. destruct (C119_sequence l r) as (b & E & Hb). exists b. split; [exact E|]. rewrite Hb. unfold pairwise.
  revert C. generalize (elements l), (elements r). clear. induction l as [|x l IH]; intros [|y r] C; cbn [map];
    try (split; intros H; inversion H; auto; fail).
  - assert (K := teq_comparable x y (C x y (or_introl eq_refl) (or_introl eq_refl))).
    assert (C' : forall u v, In u l -> In v r -> comparable u v) by (intros; apply C; now right).
    destruct (IH r C') as [I1 I2]. split; intros H.
    + inversion H as [|? ? ? ? Hxy Hr]; subst. rewrite K in Hxy. apply Z.eqb_eq in Hxy. rewrite Hxy. f_equal. auto.
    + injection H as Hxy Hr. constructor; [rewrite K; now apply Z.eqb_eq|auto].
Qed.
(** Finding: a negative number equals a large unsigned one, in ranges as in tuples. *)
Theorem C119_signs_refuted : forall s u k, ctype s -> ctype u -> sgn s = true -> sgn u = false ->
  32 <= bits u -> bits s <= bits u -> 0 < k -> in_ity s (- k) ->
  is_equal_sequence (Range s [- k]) (Range u [2 ^ bits u - k]) = Ok true /\
  is_equal_sequence (Tup [{| tty := s; tz := - k |}]) (Range u [2 ^ bits u - k]) = Ok true.
Proof.
  intros s u k Cs Cu Ss Su U L K I.
  assert (T : teq {| tty := s; tz := - k |} {| tty := u; tz := 2 ^ bits u - k |} = true).
  { unfold teq, tcmp, tconv. cbn [tty tz]. rewrite (promote_id u) by lia.
    assert (E : common (promote s) u = u).
    { unfold common. assert (P : sgn (promote s) = true) by (unfold promote; destruct (bits s <? 32); auto).
      rewrite P, Su. cbn [Bool.eqb]. destruct (promote_ctype s Cs) as (_ & _ & _).
      replace (bits (promote s) <=? bits u) with true; [reflexivity|].
      symmetry. apply Z.leb_le. unfold promote. destruct (bits s <? 32); cbn; lia. }
    rewrite E. apply Z.eqb_eq. apply wrap_congr; [lia|].
    replace (2 ^ bits u - k) with (- k + 1 * 2 ^ bits u) by ring. now rewrite Z_mod_plus_full. }
  split; [destruct (C119_sequence (Range s [- k]) (Range u [2 ^ bits u - k])) as (b & -> & Hb)
         |destruct (C119_sequence (Tup [{| tty := s; tz := - k |}]) (Range u [2 ^ bits u - k])) as (b & -> & Hb)];
    f_equal; apply Hb; constructor; auto.
Qed.
(** Finding: so equality of sequences is not transitive. *)
Theorem C119_transitive_refuted : exists a b c,
  is_equal_sequence a b = Ok true /\ is_equal_sequence b c = Ok true /\ is_equal_sequence a c = Ok false.
Proof.
  exists (Range int32 [-1]), (Range uint32 [4294967295]), (Range int64 [4294967295]). vm_compute. auto.
Qed.
(** Among sequences whose elements can be compared it is. *)
Theorem C119_transitive : forall a b c,
  (forall x y, In x (elements a) -> In y (elements b) -> comparable x y) ->
  (forall x y, In x (elements b) -> In y (elements c) -> comparable x y) ->
  (forall x y, In x (elements a) -> In y (elements c) -> comparable x y) ->
  is_equal_sequence a b = Ok true -> is_equal_sequence b c = Ok true -> is_equal_sequence a c = Ok true.
Proof.
  intros a b c AB BC AC E F. destruct (C119_numbers a b AB) as (x & X & Hx), (C119_numbers b c BC) as (y & Y & Hy),
    (C119_numbers a c AC) as (z & -> & Hz). f_equal. apply Hz. rewrite E in X. rewrite F in Y.
  injection X as <-. injection Y as <-. destruct Hx as [Hx _], Hy as [Hy _]. rewrite Hx by reflexivity. auto.
Qed.
Example C119_case :
  is_equal_sequence (Range int8 [1; -2]) (Tup [{| tty := int64; tz := 1 |}; {| tty := int32; tz := -2 |}]) = Ok true /\
  is_equal_sequence (Range uint8 [1; 2]) (Range int32 [1; 3]) = Ok false /\
  is_equal_sequence (Tup []) (Range int32 []) = Ok true /\
  is_equal_sequence (Tup [{| tty := int32; tz := 1 |}]) (Tup []) = Ok false.
Proof. vm_compute. auto. Qed.
Example C119_comparable_case : comparable {| tty := uint8; tz := 200 |} {| tty := int32; tz := -2 |}.
Proof. unfold comparable, value, ctype, in_ity; cbn; lia. Qed.
Print Assumptions C119_sequence.
Print Assumptions C119_symmetric.
Print Assumptions C119_reflexive.
Print Assumptions C119_numbers.
Print Assumptions C119_signs_refuted.
Print Assumptions C119_transitive_refuted.
Print Assumptions C119_transitive.
