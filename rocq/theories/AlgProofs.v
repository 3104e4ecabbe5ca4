(** Proofs about the range overloads of standard algorithms (C142). *)
From Coq Require Import List Bool PeanoNat Lia Sorting.Permutation Sorting.Sorted.
From Verif Require Import Outcome ListLemmas AlgModel.
Import ListNotations.

(** ** Specification *)
(** A comparison as the standard algorithms require it: a strict weak order. *)
Definition weak_order {A} (lt : A -> A -> bool) : Prop :=
  (forall x, lt x x = false) /\
  (forall x y z, lt x y = true -> lt y z = true -> lt x z = true) /\
  (forall x y z, lt x z = true -> lt x y = true \/ lt y z = true).
(** ... in which different elements are never equivalent. *)
Definition total_order {A} (lt : A -> A -> bool) : Prop :=
  weak_order lt /\ forall x y, lt x y = false -> lt y x = false -> x = y.
Definition sorted {A} (lt : A -> A -> bool) (l : list A) : Prop := StronglySorted (fun x y => lt y x = false) l.
Definition equivalent {A} (lt : A -> A -> bool) (x y : A) : bool := negb (lt x y) && negb (lt y x).
(** Lexicographical order of sequences. *)
Inductive lexless {A} (lt : A -> A -> bool) : list A -> list A -> Prop :=
| lex_nil y r : lexless lt [] (y :: r)
| lex_here x y l r : lt x y = true -> lexless lt (x :: l) (y :: r)
| lex_there x y l r : lt x y = false -> lt y x = false -> lexless lt l r -> lexless lt (x :: l) (y :: r).
(** The elements of each group follow its head and are related to it. *)
Definition groups {A} (pred : A -> A -> bool) (gs : list (A * list A)) : Prop :=
  Forall (fun g => Forall (fun y => pred (fst g) y = true) (snd g)) gs /\
  forall i x y, nth_error (map fst gs) i = Some x -> nth_error (map fst gs) (S i) = Some y -> pred x y = false.

Section Proofs.
  Context {A : Type}.
  Implicit Types (lt : A -> A -> bool) (l r : list A).

  (** ** count, mismatch *)
  Lemma count_loop_ok eqb l v : forall n, count_loop eqb l v n = n + length (filter (fun x => eqb x v) l).
  Proof.
    induction l as [|x l IH]; intro n; cbn [count_loop filter]; [cbn; lia|].
    rewrite IH. destruct (eqb x v); cbn [length]; lia.
  Qed.

  Lemma mismatch_ok eqb l : forall r p, exists k, alg_mismatch eqb l r p = (p + k, p + k) /\
    (forall i, i < k -> exists x y, nth_error l i = Some x /\ nth_error r i = Some y /\ eqb x y = true) /\
    (forall x y, nth_error l k = Some x -> nth_error r k = Some y -> eqb x y = false).
  Proof.
    induction l as [|x l IH]; intros [|y r] p; cbn [alg_mismatch].
    1-3: exists 0; rewrite Nat.add_0_r; (split; [reflexivity|]); split; [lia|intros a b; cbn; congruence].
    destruct (eqb x y) eqn:E.
    - destruct (IH r (S p)) as (k & H & Pr & St). exists (S k). split; [rewrite H; f_equal; lia|]. split.
      + intros [|i] Hi; [exists x, y; auto|]. apply Pr. lia.
      + exact St.
    - exists 0. rewrite Nat.add_0_r. split; [reflexivity|]. split; [lia|]. intros a b [= <-] [= <-]. exact E.
  Qed.

  (** ** Binary search *)
  Fixpoint ploop (p : A -> bool) (l : list A) (fuel first len cmps : nat) : outcome (nat * nat) :=
    if len =? 0 then Ok (first, cmps)
    else match fuel with
    | O => NoFuel
    | S fuel =>
        let half := Nat.div2 len in
        match nth_error l (first + half) with
        | Some x =>
            if p x then ploop p l fuel (first + half + 1) (len - half - 1) (S cmps)
            else ploop p l fuel first half (S cmps)
        | None => UB
        end
    end.

  Lemma lower_ploop lt l v : forall fuel first len c,
    lower_loop lt l v fuel first len c = ploop (fun x => lt x v) l fuel first len c.
  Proof.
    induction fuel as [|fuel IH]; intros; cbn [lower_loop ploop]; [reflexivity|].
    destruct (len =? 0); [reflexivity|]. cbv zeta. destruct (nth_error _ _); [|reflexivity].
    destruct (lt a v); apply IH.
  Qed.

  Lemma upper_ploop lt l v : forall fuel first len c,
    upper_loop lt l v fuel first len c = ploop (fun x => negb (lt v x)) l fuel first len c.
  Proof.
    induction fuel as [|fuel IH]; intros; cbn [upper_loop ploop]; [reflexivity|].
    destruct (len =? 0); [reflexivity|]. cbv zeta. destruct (nth_error _ _); [|reflexivity].
    destruct (lt v a); cbn [negb]; apply IH.
  Qed.

  Definition rounds (n : nat) : nat := if n =? 0 then 0 else S (Nat.log2 n).

  Lemma div2_bound n : n <> 0 -> Nat.div2 n < n /\ n - Nat.div2 n - 1 <= Nat.div2 n /\ 2 * Nat.div2 n <= n.
  Proof. intro H. pose proof (Nat.div2_odd n) as E. destruct (Nat.odd n); cbn [Nat.b2n] in E; lia. Qed.

  Lemma rounds_le a b : a <= b -> rounds a <= rounds b.
  Proof.
    intro H. unfold rounds. destruct (Nat.eqb_spec a 0), (Nat.eqb_spec b 0); try lia.
    pose proof (Nat.log2_le_mono a b H). lia.
  Qed.

  Lemma rounds_half n : n <> 0 -> S (rounds (Nat.div2 n)) <= rounds n.
  Proof.
    intro H. unfold rounds at 2. destruct (Nat.eqb_spec n 0); [contradiction|].
    unfold rounds. destruct (Nat.eqb_spec (Nat.div2 n) 0); [lia|].
    pose proof (div2_bound n H). pose proof (Nat.log2_double (Nat.div2 n) ltac:(lia)).
    pose proof (Nat.log2_le_mono (2 * Nat.div2 n) n ltac:(lia)). lia.
  Qed.

  Lemma ploop_ok p l k : k <= length l ->
    (forall i x, nth_error l i = Some x -> p x = (i <? k)) ->
    forall fuel first len c, len <= fuel -> first <= k -> k <= first + len -> first + len <= length l ->
    exists c', ploop p l fuel first len c = Ok (k, c') /\ c' <= c + rounds len.
  Proof.
    intros K P. induction fuel as [|fuel IH]; intros first len c F L1 L2 L3; cbn [ploop];
      destruct (Nat.eqb_spec len 0) as [Z|Z].
    - exists c. split; [f_equal; f_equal; lia|lia].
    - lia.
    - exists c. split; [f_equal; f_equal; lia|lia].
    - cbv zeta. pose proof (div2_bound len Z) as (B1 & B2 & _). pose proof (rounds_half len Z) as R.
      destruct (nth_error l (first + Nat.div2 len)) as [x|] eqn:E; [|apply nth_error_None in E; lia].
      rewrite (P _ _ E). destruct (Nat.ltb_spec (first + Nat.div2 len) k).
      + destruct (IH (first + Nat.div2 len + 1) (len - Nat.div2 len - 1) (S c)) as (c' & Q & Lc); try lia.
        exists c'. split; [assumption|]. pose proof (rounds_le _ _ B2). lia.
      + destruct (IH first (Nat.div2 len) (S c)) as (c' & Q & Lc); try lia.
        exists c'. split; [assumption|]. lia.
  Qed.

  (** In a sorted range the elements with a downward closed property come first. *)
  Lemma prefix_count lt p l : (forall x y, lt y x = false -> p y = true -> p x = true) -> sorted lt l ->
    forall i x, nth_error l i = Some x -> p x = (i <? length (filter p l)).
  Proof.
    intro D. induction 1 as [|a l S IH F]; intros i x N; [destruct i; discriminate|].
    destruct i as [|i].
    - injection N as <-. cbn [filter]. destruct (p a) eqn:E; [reflexivity|].
      symmetry. apply Nat.ltb_ge.
      assert (Q : filter p l = []).
      { clear -E F D. induction F as [|b l Hb F IH]; [reflexivity|]. cbn [filter].
        destruct (p b) eqn:Eb; [|exact IH]. rewrite (D a b Hb Eb) in E. discriminate. }
      rewrite Q. cbn. lia.
    - cbn in N. rewrite (IH i x N). cbn [filter]. destruct (p a) eqn:E; cbn [length]; [reflexivity|].
      assert (Q : filter p l = []).
      { clear -E F D. induction F as [|b l Hb F IH]; [reflexivity|]. cbn [filter].
        destruct (p b) eqn:Eb; [|exact IH]. rewrite (D a b Hb Eb) in E. discriminate. }
      now rewrite Q.
  Qed.

  Lemma filter_le p l : length (filter p l) <= length l.
  Proof. induction l as [|x l IH]; cbn [filter length]; [lia|]. destruct (p x); cbn [length]; lia. Qed.

  Lemma lower_ok lt l v : weak_order lt -> sorted lt l ->
    exists c, alg_lower_bound lt l v = Ok (length (filter (fun x => lt x v) l), c) /\ c <= rounds (length l).
  Proof.
    intros (I & Tr & N) S. unfold alg_lower_bound. rewrite lower_ploop.
    pose proof (filter_le (fun x => lt x v) l).
    destruct (ploop_ok (fun x => lt x v) l (length (filter (fun x => lt x v) l)) ltac:(lia)) with
      (fuel := length l) (first := 0) (len := length l) (c := 0) as (c & E & L); try lia.
    - apply prefix_count with lt; [|assumption]. intros x y Yx Yv. destruct (N y x v Yv); congruence.
    - exists c. split; [exact E|]. lia.
  Qed.

  Lemma upper_ok lt l v : weak_order lt -> sorted lt l ->
    exists c, alg_upper_bound lt l v = Ok (length (filter (fun x => negb (lt v x)) l), c) /\ c <= rounds (length l).
  Proof.
    intros (I & Tr & N) S. unfold alg_upper_bound. rewrite upper_ploop.
    pose proof (filter_le (fun x => negb (lt v x)) l).
    destruct (ploop_ok (fun x => negb (lt v x)) l (length (filter (fun x => negb (lt v x)) l)) ltac:(lia)) with
      (fuel := length l) (first := 0) (len := length l) (c := 0) as (c & E & L); try lia.
    - apply prefix_count with lt; [|assumption]. intros x y Yx Yv. apply negb_true_iff in Yv. apply negb_true_iff.
      destruct (lt v x) eqn:Q; [|reflexivity]. destruct (N v y x Q); congruence.
    - exists c. split; [exact E|]. lia.
  Qed.

  Lemma equal_range_length lt l v : weak_order lt ->
    length (filter (fun x => negb (lt v x)) l) =
    length (filter (fun x => lt x v) l) + length (filter (fun x => equivalent lt x v) l).
  Proof.
    intros (I & Tr & N). induction l as [|x l IH]; [reflexivity|]. cbn [filter]. unfold equivalent at 1.
    destruct (lt v x) eqn:E, (lt x v) eqn:E'; cbn [negb andb length]; try lia.
    pose proof (Tr _ _ _ E' E) as Q. rewrite I in Q. discriminate.
  Qed.

  (** ** unique *)
  Lemma unique_loop_ok pred l : forall kept, exists zs gs,
    l = zs ++ flat_map (fun g => fst g :: snd g) gs /\ unique_loop pred kept l = map fst gs /\
    Forall (fun y => pred kept y = true) zs /\ groups pred ((kept, zs) :: gs).
  Proof.
    induction l as [|x l IH]; intro kept; cbn [unique_loop].
    - exists [], []. split; [reflexivity|]. split; [reflexivity|]. split; [constructor|].
      split; [repeat constructor|]. intros [|[|i]] a b; cbn; congruence.
    - destruct (pred kept x) eqn:E.
      + destruct (IH kept) as (zs & gs & -> & U & Z & G). exists (x :: zs), gs.
        split; [reflexivity|]. split; [exact U|]. split; [now constructor|].
        destruct G as [G1 G2]. split; [|exact G2]. inversion G1; subst. constructor; [|assumption]. now constructor.
      + destruct (IH x) as (zs & gs & E' & U & Z & G). exists [], ((x, zs) :: gs).
        split; [now rewrite E'|]. split; [cbn [map fst]; now rewrite U|]. split; [constructor|].
        destruct G as [G1 G2]. split; [constructor; [constructor|assumption]|].
        intros [|i] a b; [intros [= <-] [= <-]; exact E|]. exact (G2 i a b).
  Qed.

  Lemma unique_ok pred l : exists gs, l = flat_map (fun g => fst g :: snd g) gs /\
    alg_unique pred l = map fst gs /\ groups pred gs.
  Proof.
    destruct l as [|x l].
    - exists []. split; [reflexivity|]. split; [reflexivity|]. split; [constructor|]. intros [|i] a b; discriminate.
    - destruct (unique_loop_ok pred l x) as (zs & gs & E & U & Z & G).
      exists ((x, zs) :: gs). cbn [alg_unique flat_map map fst snd]. rewrite U. split; [now rewrite E|]. auto.
  Qed.

  (** ** merge *)
  Lemma merge_cons lt x l y r : alg_merge lt (x :: l) (y :: r) =
    if lt y x then y :: alg_merge lt (x :: l) r else x :: alg_merge lt l (y :: r).
  Proof. reflexivity. Qed.

  Lemma merge_nil_r lt l : alg_merge lt l [] = l.
  Proof. destruct l; reflexivity. Qed.

  Lemma merge_perm lt l : forall r, Permutation (l ++ r) (alg_merge lt l r).
  Proof.
    induction l as [|x l IH]; [reflexivity|]. induction r as [|y r IHr].
    - rewrite merge_nil_r, app_nil_r. reflexivity.
    - rewrite merge_cons. destruct (lt y x).
      + rewrite <- IHr. symmetry. apply Permutation_middle.
      + cbn [app]. constructor. apply IH.
  Qed.

  Lemma merge_sorted lt l : weak_order lt -> forall r, sorted lt l -> sorted lt r -> sorted lt (alg_merge lt l r).
  Proof.
    intros (I & Tr & N).
    assert (T : forall x y z, lt y x = false -> lt z y = false -> lt z x = false).
    { intros x y z H1 H2. destruct (lt z x) eqn:E; [|reflexivity]. destruct (N z y x E); congruence. }
    induction l as [|x l IH]; intros r Sl Sr; [exact Sr|]. induction r as [|y r IHr].
    - now rewrite merge_nil_r.
    - rewrite merge_cons.
      apply StronglySorted_inv in Sl as Sl'. destruct Sl' as [Sl' Fl].
      apply StronglySorted_inv in Sr as Sr'. destruct Sr' as [Sr' Fr].
      destruct (lt y x) eqn:E.
      + constructor; [now apply IHr|].
        assert (Yx : lt x y = false).
        { destruct (lt x y) eqn:Q; [|reflexivity]. pose proof (Tr _ _ _ E Q). congruence. }
        eapply Permutation_Forall; [apply merge_perm|]. apply Forall_app. split; [|assumption].
        constructor; [assumption|]. eapply Forall_impl; [|exact Fl]. intros z Hz. cbv beta in *. now apply T with x.
      + constructor; [now apply IH|].
        eapply Permutation_Forall; [apply merge_perm|]. apply Forall_app. split; [assumption|].
        constructor; [assumption|]. eapply Forall_impl; [|exact Fr]. intros z Hz. cbv beta in *. now apply T with y.
  Qed.

  Lemma merge_stable lt l v : weak_order lt -> forall r, sorted lt l ->
    filter (equivalent lt v) (alg_merge lt l r) = filter (equivalent lt v) l ++ filter (equivalent lt v) r.
  Proof.
    intros W. pose proof W as (I & Tr & N). induction l as [|x l IH]; intros r Sl; [reflexivity|].
    apply StronglySorted_inv in Sl as Sl'. destruct Sl' as [Sl' Fl].
    induction r as [|y r IHr].
    - rewrite merge_nil_r. cbn [filter app]. now rewrite app_nil_r.
    - rewrite merge_cons. destruct (lt y x) eqn:E.
      + cbn [filter] in IHr |- *. rewrite IHr. destruct (equivalent lt v y) eqn:Ey; [|reflexivity].
        assert (Z : forall z, In z (x :: l) -> equivalent lt v z = false).
        { intros z Hz. assert (Lz : lt y z = true).
          { destruct Hz as [<-|Hz]; [assumption|]. rewrite Forall_forall in Fl. specialize (Fl z Hz). cbv beta in Fl.
            destruct (N y z x E); congruence. }
          unfold equivalent in *. apply andb_prop in Ey. destruct Ey as [E1 E2].
          apply negb_true_iff in E1, E2. destruct (N y v z Lz) as [Q|Q]; [congruence|]. now rewrite Q. }
        rewrite (Z x) by now left.
        assert (Q : filter (equivalent lt v) l = []).
        { assert (Z' : forall z, In z l -> equivalent lt v z = false) by (intros z Hz; apply Z; now right).
          clear -Z'. induction l as [|z l IH]; [reflexivity|]. cbn [filter]. rewrite Z' by now left.
          apply IH. intros w Hw. apply Z'. now right. }
        now rewrite Q.
      + cbn [filter]. rewrite IH by assumption. cbn [filter]. destruct (equivalent lt v x); reflexivity.
  Qed.

  (** ** min_element, max_element, minmax_element *)
  (** First element such that none is less. *)
  Definition first_min lt l i := exists x, nth_error l i = Some x /\
    (forall j y, nth_error l j = Some y -> lt y x = false) /\
    (forall j y, j < i -> nth_error l j = Some y -> lt x y = true).
  Definition first_max lt l i := exists x, nth_error l i = Some x /\
    (forall j y, nth_error l j = Some y -> lt x y = false) /\
    (forall j y, j < i -> nth_error l j = Some y -> lt y x = true).
  Definition last_max lt l i := exists x, nth_error l i = Some x /\
    (forall j y, nth_error l j = Some y -> lt x y = false) /\
    (forall j y, i < j -> nth_error l j = Some y -> lt y x = true).

  Lemma nth_error_snoc (l : list A) x i y : nth_error (l ++ [x]) i = Some y ->
    nth_error l i = Some y \/ (i = length l /\ y = x).
  Proof.
    intro H. destruct (Nat.lt_ge_cases i (length l)) as [L|L].
    - rewrite nth_error_app1 in H by assumption. now left.
    - rewrite nth_error_app2 in H by assumption. right.
      destruct (i - length l) as [|k] eqn:E; [injection H as <-; split; [lia|reflexivity]|].
      destruct k; discriminate.
  Qed.

  Lemma nth_error_snoc_last (l : list A) x : nth_error (l ++ [x]) (length l) = Some x.
  Proof. rewrite nth_error_app2 by lia. now rewrite Nat.sub_diag. Qed.

  Lemma nth_error_snoc_l (l : list A) x i y : nth_error l i = Some y -> nth_error (l ++ [x]) i = Some y.
  Proof. intro H. rewrite nth_error_app1; [assumption|]. apply nth_error_Some. congruence. Qed.

  Lemma nth_lt (l : list A) i y : nth_error l i = Some y -> i < length l.
  Proof. intro H. apply nth_error_Some. congruence. Qed.

  Section Order.
    Variable lt : A -> A -> bool.
    Hypothesis W : weak_order lt.

    Lemma lt_asym x y : lt x y = true -> lt y x = false.
    Proof.
      destruct W as (I & Tr & N). intro H. destruct (lt y x) eqn:E; [|reflexivity].
      pose proof (Tr _ _ _ H E). rewrite I in *. discriminate.
    Qed.
    Lemma le_trans x y z : lt y x = false -> lt z y = false -> lt z x = false.
    Proof. destruct W as (I & Tr & N). intros H1 H2. destruct (lt z x) eqn:E; [|reflexivity]. destruct (N z y x E); congruence. Qed.
    Lemma lt_le_trans x y z : lt x y = true -> lt z y = false -> lt x z = true.
    Proof. destruct W as (I & Tr & N). intros H1 H2. destruct (N x z y H1); congruence. Qed.
    Lemma le_lt_trans x y z : lt y x = false -> lt y z = true -> lt x z = true.
    Proof. destruct W as (I & Tr & N). intros H1 H2. destruct (N y x z H2); congruence. Qed.
    Lemma lt_irr x : lt x x = false.
    Proof. apply W. Qed.

    Definition is_min l (b : nat * A) := nth_error l (fst b) = Some (snd b) /\
      (forall j y, nth_error l j = Some y -> lt y (snd b) = false) /\
      (forall j y, j < fst b -> nth_error l j = Some y -> lt (snd b) y = true).
    Definition is_max l (b : nat * A) := nth_error l (fst b) = Some (snd b) /\
      (forall j y, nth_error l j = Some y -> lt (snd b) y = false) /\
      (forall j y, j < fst b -> nth_error l j = Some y -> lt y (snd b) = true).
    Definition is_lmax l (b : nat * A) := nth_error l (fst b) = Some (snd b) /\
      (forall j y, nth_error l j = Some y -> lt (snd b) y = false) /\
      (forall j y, fst b < j -> nth_error l j = Some y -> lt y (snd b) = true).

    Lemma is_min_snoc l b x : is_min l b -> is_min (l ++ [x]) (if lt x (snd b) then (length l, x) else b).
    Proof.
      intros (N & M & F). destruct (lt x (snd b)) eqn:E; unfold is_min, is_max, is_lmax; cbn [fst snd].
      - split; [apply nth_error_snoc_last|]. split; intros j y.
        + intro H. apply nth_error_snoc in H. destruct H as [H|[_ ->]]; [|apply lt_irr].
          apply le_trans with (snd b); [now apply lt_asym|]. now apply M with j.
        + intros Lj H. apply nth_error_snoc in H. destruct H as [H|[-> _]]; [|lia].
          apply lt_le_trans with (snd b); [assumption|]. now apply M with j.
      - split; [now apply nth_error_snoc_l|]. split; intros j y.
        + intro H. apply nth_error_snoc in H. destruct H as [H|[_ ->]]; [|assumption]. now apply M with j.
        + intros Lj H. apply nth_error_snoc in H. destruct H as [H|[-> _]]; [now apply F with j|].
          apply nth_lt in N. lia.
    Qed.

    Lemma is_max_snoc l b x : is_max l b -> is_max (l ++ [x]) (if lt (snd b) x then (length l, x) else b).
    Proof.
      intros (N & M & F). destruct (lt (snd b) x) eqn:E; unfold is_min, is_max, is_lmax; cbn [fst snd].
      - split; [apply nth_error_snoc_last|]. split; intros j y.
        + intro H. apply nth_error_snoc in H. destruct H as [H|[_ ->]]; [|apply lt_irr].
          apply le_trans with (snd b); [now apply M with j|]. now apply lt_asym.
        + intros Lj H. apply nth_error_snoc in H. destruct H as [H|[-> _]]; [|lia].
          apply le_lt_trans with (snd b); [|assumption]. now apply M with j.
      - split; [now apply nth_error_snoc_l|]. split; intros j y.
        + intro H. apply nth_error_snoc in H. destruct H as [H|[_ ->]]; [|assumption]. now apply M with j.
        + intros Lj H. apply nth_error_snoc in H. destruct H as [H|[-> _]]; [now apply F with j|].
          apply nth_lt in N. lia.
    Qed.

    Lemma is_lmax_snoc l b x : is_lmax l b -> is_lmax (l ++ [x]) (if lt x (snd b) then b else (length l, x)).
    Proof.
      intros (N & M & F). destruct (lt x (snd b)) eqn:E; unfold is_min, is_max, is_lmax; cbn [fst snd].
      - split; [now apply nth_error_snoc_l|]. split; intros j y.
        + intro H. apply nth_error_snoc in H. destruct H as [H|[_ ->]]; [now apply M with j|]. now apply lt_asym.
        + intros Lj H. apply nth_error_snoc in H. destruct H as [H|[_ ->]]; [now apply F with j|]. assumption.
      - split; [apply nth_error_snoc_last|]. split; intros j y.
        + intro H. apply nth_error_snoc in H. destruct H as [H|[_ ->]]; [|apply lt_irr].
          apply le_trans with (snd b); [now apply M with j|]. assumption.
        + intros Lj H. apply nth_error_snoc in H. destruct H as [H|[-> _]]; [|lia]. apply nth_lt in H. lia.
    Qed.

    Lemma min_loop_ok l : forall pre b, is_min pre b ->
      exists x, is_min (pre ++ l) (min_loop lt l (length pre) b, x).
    Proof.
      induction l as [|x l IH]; intros pre b H; cbn [min_loop].
      - rewrite app_nil_r. destruct b as [i y]. exists y. exact H.
      - specialize (IH (pre ++ [x]) _ (is_min_snoc pre b x H)). rewrite <- app_assoc, app_length in IH.
        cbn [app length] in IH. now rewrite Nat.add_1_r in IH.
    Qed.

    Lemma max_loop_ok l : forall pre b, is_max pre b ->
      exists x, is_max (pre ++ l) (max_loop lt l (length pre) b, x).
    Proof.
      induction l as [|x l IH]; intros pre b H; cbn [max_loop].
      - rewrite app_nil_r. destruct b as [i y]. exists y. exact H.
      - specialize (IH (pre ++ [x]) _ (is_max_snoc pre b x H)). rewrite <- app_assoc, app_length in IH.
        cbn [app length] in IH. now rewrite Nat.add_1_r in IH.
    Qed.

    Lemma single_min x : is_min [x] (0, x).
    Proof.
      split; [reflexivity|]. split; [|intros; cbn in *; lia].
      intros [|[|j]] y [= <-]. apply lt_irr.
    Qed.
    Lemma single_max x : is_max [x] (0, x).
    Proof.
      split; [reflexivity|]. split; [|intros; cbn in *; lia].
      intros [|[|j]] y [= <-]. apply lt_irr.
    Qed.
    Lemma single_lmax x : is_lmax [x] (0, x).
    Proof.
      split; [reflexivity|]. split.
      - intros [|[|j]] y [= <-]. apply lt_irr.
      - intros [|[|j]] y L E; cbn in *; [lia|discriminate|discriminate].
    Qed.

    (** Two elements at once. *)
    Lemma is_min_two l b x y : is_min l b ->
      is_min (l ++ [x; y]) (if lt y x then (if lt y (snd b) then (S (length l), y) else b)
                            else (if lt x (snd b) then (length l, x) else b)).
    Proof.
      intro H. replace (l ++ [x; y]) with ((l ++ [x]) ++ [y]) by (rewrite <- app_assoc; reflexivity).
      pose proof (is_min_snoc _ _ y (is_min_snoc _ _ x H)) as G.
      rewrite app_length in G. cbn [length] in G. rewrite Nat.add_1_r in G.
      destruct (lt x (snd b)) eqn:E1; cbn [snd] in G.
      - destruct (lt y x) eqn:E2; [|exact G].
        assert (Q : lt y (snd b) = true) by (destruct W as (_ & Tr & _); eapply Tr; eassumption). now rewrite Q.
      - destruct (lt y x) eqn:E2; [exact G|].
        assert (Q : lt y (snd b) = false) by (eapply le_trans; eassumption). rewrite Q in G. exact G.
    Qed.

    Lemma is_lmax_two l b x y : is_lmax l b ->
      is_lmax (l ++ [x; y]) (if lt y x then (if lt x (snd b) then b else (length l, x))
                            else (if lt y (snd b) then b else (S (length l), y))).
    Proof.
      intro H. replace (l ++ [x; y]) with ((l ++ [x]) ++ [y]) by (rewrite <- app_assoc; reflexivity).
      pose proof (is_lmax_snoc _ _ y (is_lmax_snoc _ _ x H)) as G.
      rewrite app_length in G. cbn [length] in G. rewrite Nat.add_1_r in G.
      destruct (lt x (snd b)) eqn:E1; cbn [snd] in G.
      - destruct (lt y x) eqn:E2; [|exact G].
        assert (Q : lt y (snd b) = true) by (destruct W as (_ & Tr & _); eapply Tr; eassumption).
        rewrite Q in G. exact G.
      - destruct (lt y x) eqn:E2; [exact G|].
        assert (Q : lt y (snd b) = false) by (eapply le_trans; eassumption). rewrite Q. exact G.
    Qed.

    Lemma minmax_loop_ok : forall n l pre mn mx c, length l <= n -> is_min pre mn -> is_lmax pre mx ->
      exists i j c', minmax_loop lt l (length pre) mn mx c = (i, j, c') /\
        (exists x, is_min (pre ++ l) (i, x)) /\ (exists x, is_lmax (pre ++ l) (j, x)) /\
        2 * c' <= 2 * c + 3 * length l + (if Nat.odd (length l) then 1 else 0).
    Proof.
      induction n as [|n IH]; intros [|x [|y l]] pre mn mx c L Mn Mx; cbn [length] in L; try lia; cbn [minmax_loop].
      - exists (fst mn), (fst mx), c. rewrite app_nil_r. destruct mn as [i a], mx as [j b]. cbn [fst].
        split; [reflexivity|]. split; [now exists a|]. split; [now exists b|]. cbn. lia.
      - exists (fst mn), (fst mx), c. rewrite app_nil_r. destruct mn as [i a], mx as [j b]. cbn [fst].
        split; [reflexivity|]. split; [now exists a|]. split; [now exists b|]. cbn. lia.
      - pose proof (is_min_snoc _ _ x Mn) as G. pose proof (is_lmax_snoc _ _ x Mx) as K.
        destruct mn as [i a], mx as [j b]. cbn [fst snd] in *.
        destruct (lt x a) eqn:E1.
        + assert (Q : lt x b = true).
          { destruct Mx as (_ & Mb & _). destruct Mn as (Na & _ & _). cbn [fst snd] in *.
            eapply lt_le_trans; [exact E1|]. now apply Mb with i. }
          rewrite Q in K. eexists _, _, _. split; [reflexivity|]. split; [now exists x|]. split; [now exists b|]. cbn. lia.
        + destruct (lt x b) eqn:E2; eexists _, _, _; (split; [reflexivity|]);
            (split; [now exists a|]); (split; [eexists; exact K|]); cbn; lia.
      - pose proof (is_min_two _ _ x y Mn) as G. pose proof (is_lmax_two _ _ x y Mx) as K.
        destruct (lt y x) eqn:E.
        + destruct (IH l (pre ++ [x; y]) _ _ (3 + c) ltac:(lia) G K) as (i & j & c' & Eq & H1 & H2 & H3).
          rewrite app_length in Eq. cbn [length] in Eq. replace (length pre + 2) with (S (S (length pre))) in Eq by lia.
          exists i, j, c'. split; [exact Eq|]. rewrite <- app_assoc in H1, H2. cbn [app] in H1, H2.
          split; [assumption|]. split; [assumption|]. cbn [length]. change (Nat.odd (S (S (length l)))) with (Nat.odd (length l)). lia.
        + destruct (IH l (pre ++ [x; y]) _ _ (3 + c) ltac:(lia) G K) as (i & j & c' & Eq & H1 & H2 & H3).
          rewrite app_length in Eq. cbn [length] in Eq. replace (length pre + 2) with (S (S (length pre))) in Eq by lia.
          exists i, j, c'. split; [exact Eq|]. rewrite <- app_assoc in H1, H2. cbn [app] in H1, H2.
          split; [assumption|]. split; [assumption|]. cbn [length]. change (Nat.odd (S (S (length l)))) with (Nat.odd (length l)). lia.
    Qed.

    (** ** lexicographical_compare *)
    Lemma alg_lex_ok l : forall r, alg_lex lt l r = true <-> lexless lt l r.
    Proof.
      induction l as [|x l IH]; intros [|y r]; cbn [alg_lex].
      - split; [discriminate|inversion 1].
      - split; [constructor|reflexivity].
      - split; [discriminate|inversion 1].
      - destruct (lt x y) eqn:E; [split; [now constructor|reflexivity]|].
        destruct (lt y x) eqn:E'; [split; [discriminate|inversion 1; congruence]|].
        rewrite IH. split; [now constructor|]. inversion 1; [congruence|assumption].
    Qed.

    Lemma lex_irr l : ~ lexless lt l l.
    Proof. induction l as [|x l IH]; inversion 1; subst; [rewrite lt_irr in *; discriminate|contradiction]. Qed.

    Lemma lex_trans a : forall b c, lexless lt a b -> lexless lt b c -> lexless lt a c.
    Proof.
      induction a as [|x a IH]; intros b c H1 H2.
      - inversion H1; subst. inversion H2; subst; constructor.
      - inversion H1 as [|? y ? b' L|? y ? b' N1 N2 L]; subst; inversion H2 as [|? z ? c' L'|? z ? c' N1' N2' L']; subst.
        + apply lex_here. destruct W as (_ & Tr & _). eapply Tr; eassumption.
        + apply lex_here. now apply lt_le_trans with y.
        + apply lex_here. now apply le_lt_trans with y.
        + apply lex_there; [now apply le_trans with y|now apply le_trans with y|]. now apply IH with b'.
    Qed.

    Lemma lex_neg a : forall b c, lexless lt a c -> lexless lt a b \/ lexless lt b c.
    Proof.
      induction a as [|x a IH]; intros [|y b] c H; inversion H as [z r|? z ? c' L|? z ? c' N1 N2 L]; subst.
      - right. constructor.
      - left. constructor.
      - right. constructor.
      - right. constructor.
      - destruct W as (_ & _ & N). destruct (lt x y) eqn:E; [left; now apply lex_here|].
        right. apply lex_here. destruct (N x y z L); congruence.
      - destruct (lt x y) eqn:E; [left; now apply lex_here|].
        destruct (lt y z) eqn:E'; [right; now apply lex_here|].
        destruct (IH b c' L) as [Q|Q].
        + left. apply lex_there; try assumption. now apply le_trans with z.
        + right. apply lex_there; try assumption. now apply le_trans with x.
    Qed.
  End Order.

  (** ** next_permutation *)
  Section Perm.
    Variable lt : A -> A -> bool.
    Hypothesis TO : total_order lt.
    Let W : weak_order lt := proj1 TO.

    Definition descending l := StronglySorted (fun x y => lt x y = false) l.

    Lemma eq_of x y : lt x y = false -> lt y x = false -> x = y.
    Proof. apply TO. Qed.

    Definition lexle l r := l = r \/ lexless lt l r.

    (** The ascending arrangement is the least, the descending one the greatest. *)
    Lemma ascending_least l : sorted lt l -> forall r, Permutation l r -> lexle l r.
    Proof.
      induction 1 as [|x l S IH F]; intros r P.
      - apply Permutation_nil in P. subst. now left.
      - destruct r as [|y r]; [symmetry in P; apply Permutation_nil in P; discriminate|].
        destruct (lt x y) eqn:E; [right; now apply lex_here|].
        assert (Ey : x = y).
        { apply eq_of; [assumption|]. assert (In y (x :: l)) as [->|Hy] by (eapply Permutation_in; [symmetry; exact P|now left]).
          - now apply lt_irr.
          - rewrite Forall_forall in F. now apply F. }
        subst y. apply Permutation_cons_inv in P. destruct (IH r P) as [->|L]; [now left|].
        right. apply lex_there; try assumption.
    Qed.

    Lemma descending_greatest l : descending l -> forall r, Permutation l r -> lexle r l.
    Proof.
      induction 1 as [|x l S IH F]; intros r P.
      - apply Permutation_nil in P. subst. now left.
      - destruct r as [|y r]; [symmetry in P; apply Permutation_nil in P; discriminate|].
        destruct (lt y x) eqn:E; [right; now apply lex_here|].
        assert (Ey : x = y).
        { apply eq_of; [|assumption]. assert (In y (x :: l)) as [->|Hy] by (eapply Permutation_in; [symmetry; exact P|now left]).
          - now apply lt_irr.
          - rewrite Forall_forall in F. now apply F. }
        subst y. apply Permutation_cons_inv in P. destruct (IH r P) as [->|L]; [now left|].
        right. apply lex_there; try assumption.
    Qed.

    Lemma rev_sorted l : descending l -> sorted lt (rev l).
    Proof.
      induction 1 as [|x l S IH F]; [constructor|]. cbn [rev].
      assert (G : forall m, sorted lt m -> Forall (fun y => lt x y = false) m -> sorted lt (m ++ [x])).
      { clear. induction 1 as [|y m S IH F]; intro G; cbn [app]; [repeat constructor|].
        inversion G; subst. constructor; [now apply IH|]. apply Forall_app. split; [assumption|]. now repeat constructor. }
      apply G; [assumption|]. apply Forall_rev. assumption.
    Qed.

    (** What the loops find: the longest descending suffix, the element before
        it and the last element of it greater than that. *)
    Lemma np_last_ok l x y k : nth_error l k = Some y -> lt x y = true -> forall j, k < j -> j <= length l ->
      exists q z, np_last lt l x j = Ok q /\ nth_error l q = Some z /\ lt x z = true /\ k <= q < j /\
        forall q' z', q < q' < j -> nth_error l q' = Some z' -> lt x z' = false.
    Proof.
      intros N L. induction j as [|j IH]; intros H1 H2; [lia|]. cbn [np_last].
      destruct (nth_error l j) as [z|] eqn:E; [|apply nth_error_None in E; lia].
      destruct (lt x z) eqn:Q.
      - exists j, z. split; [reflexivity|]. split; [assumption|]. split; [assumption|]. split; [lia|]. intros; lia.
      - assert (k <> j) by (intros ->; congruence).
        destruct IH as (q & z' & R1 & R2 & R3 & R4 & R5); try lia.
        exists q, z'. split; [assumption|]. split; [assumption|]. split; [assumption|]. split; [lia|].
        intros q' w Hq Nw. destruct (Nat.eq_dec q' j) as [->|]; [congruence|]. apply R5 with q'; [lia|assumption].
    Qed.

    Lemma skipn_at {B} : forall (l : list B) i e, nth_error l i = Some e -> skipn i l = e :: skipn (S i) l.
    Proof.
      induction l as [|x l IH]; intros [|i] e H; try discriminate; [now injection H as ->|]. exact (IH i e H).
    Qed.

    Lemma descending_cons x y l : lt x y = false -> descending (y :: l) -> descending (x :: y :: l).
    Proof.
      intros E D. constructor; [assumption|]. constructor; [assumption|].
      inversion D as [|? ? S F]; subst. eapply Forall_impl; [|exact F]. intros z Hz. cbv beta in *.
      now apply (le_trans lt W z y x).
    Qed.

    Definition step l l' : Prop := exists pre a s1 b s2,
      l = pre ++ a :: s1 ++ b :: s2 /\ l' = pre ++ b :: rev s2 ++ a :: rev s1 /\
      descending (s1 ++ b :: s2) /\ lt a b = true /\ Forall (fun z => lt a z = false) s2.

    Lemma set_app_r {B} (p : list B) (x : B) (l : list B) (y : B) : list_set (p ++ x :: l) (length p) y = p ++ y :: l.
    Proof. induction p as [|a p IH]; cbn [app length list_set]; [reflexivity|now f_equal]. Qed.

    Lemma np_loop_ok l : forall ii, ii < length l -> descending (skipn ii l) ->
      (np_loop lt l ii = Ok (false, rev l) /\ descending l) \/
      exists l', np_loop lt l ii = Ok (true, l') /\ step l l'.
    Proof.
      induction ii as [|i IH]; intros L D; cbn [np_loop]; [now left|].
      destruct (nth_error l i) as [x|] eqn:Ei; [|apply nth_error_None in Ei; lia].
      destruct (nth_error l (S i)) as [y|] eqn:Es; [|apply nth_error_None in Es; lia].
      destruct (lt x y) eqn:E.
      - right.
        destruct (np_last_ok l x y (S i) Es E (length l) ltac:(lia) ltac:(lia)) as (q & z & R1 & R2 & R3 & R4 & R5).
        rewrite R1. cbn [bind]. rewrite R2. eexists. split; [reflexivity|].
        (* decompose the list *)
        destruct (nth_error_split _ _ Ei) as (pre & suf & -> & Lp).
        assert (Sk : skipn (S i) (pre ++ x :: suf) = suf).
        { rewrite skipn_app. rewrite skipn_all2 by lia. replace (S i - length pre) with 1 by lia. reflexivity. }
        rewrite Sk in D.
        assert (Nq : nth_error suf (q - S i) = Some z).
        { rewrite nth_error_app2 in R2 by lia. destruct (q - length pre) as [|k] eqn:Ek; [lia|]. cbn in R2.
          now replace (q - S i) with k by lia. }
        destruct (nth_error_split _ _ Nq) as (s1 & s2 & -> & L1).
        exists pre, x, s1, z, s2. split; [reflexivity|]. split; [|split; [assumption|split; [assumption|]]].
        + subst i. rewrite set_app_r.
          replace q with (length (pre ++ z :: s1)) by (rewrite app_length; cbn [length]; lia).
          replace (pre ++ z :: s1 ++ z :: s2) with ((pre ++ z :: s1) ++ z :: s2) by (rewrite <- app_assoc; reflexivity).
          rewrite set_app_r.
          replace ((pre ++ z :: s1) ++ x :: s2) with ((pre ++ [z]) ++ s1 ++ x :: s2) by (rewrite <- !app_assoc; reflexivity).
          assert (Lz : length (pre ++ [z]) = S (length pre)) by (rewrite app_length; cbn [length]; lia).
          rewrite <- Lz. rewrite firstn_app, Nat.sub_diag, firstn_all. cbn [firstn]. rewrite app_nil_r.
          rewrite skipn_app, Nat.sub_diag, skipn_all. cbn [skipn app].
          rewrite rev_app_distr. cbn [rev]. rewrite <- !app_assoc. reflexivity.
        + apply Forall_forall. intros w Hw. apply In_nth_error in Hw. destruct Hw as [k Hk].
          apply R5 with (q + 1 + k).
          * split; [lia|]. rewrite !app_length. cbn [length]. rewrite app_length. cbn [length].
            assert (k < length s2) by (apply nth_error_Some; congruence). lia.
          * replace (pre ++ x :: s1 ++ z :: s2) with ((pre ++ x :: s1 ++ [z]) ++ s2)
              by (rewrite <- !app_assoc; cbn [app]; rewrite <- !app_assoc; reflexivity).
            rewrite nth_error_app2 by (rewrite app_length; cbn [length]; rewrite app_length; cbn [length]; lia).
            rewrite app_length. cbn [length]. rewrite app_length. cbn [length].
            now replace (q + 1 + k - (length pre + S (length s1 + 1))) with k by lia.
      - apply IH; [lia|]. rewrite (skipn_at l i x Ei), (skipn_at l (S i) y Es) in *.
        now apply descending_cons.
    Qed.

    Lemma next_ok l : (alg_next_permutation lt l = Ok (false, rev l) /\ descending l) \/
      exists l', alg_next_permutation lt l = Ok (true, l') /\ step l l'.
    Proof.
      destruct l as [|x [|y l]]; unfold alg_next_permutation.
      - left. split; [reflexivity|constructor].
      - left. split; [reflexivity|repeat constructor].
      - apply np_loop_ok; [cbn [length]; lia|].
        destruct (nth_error (x :: y :: l) (length (x :: y :: l) - 1)) as [e|] eqn:E;
          [|apply nth_error_None in E; cbn [length] in E; lia].
        rewrite (skipn_at _ _ _ E). rewrite skipn_all2 by (cbn [length]; lia). repeat constructor.
    Qed.

    Lemma step_perm l l' : step l l' -> Permutation l l'.
    Proof.
      intros (pre & a & s1 & b & s2 & -> & -> & _). apply Permutation_app_head.
      transitivity (b :: a :: s1 ++ s2).
      - transitivity (a :: b :: s1 ++ s2); [|constructor]. constructor. symmetry. apply Permutation_middle.
      - constructor. transitivity (a :: s2 ++ s1); [constructor; apply Permutation_app_comm|].
        transitivity (s2 ++ a :: s1); [apply Permutation_middle|].
        apply Permutation_app; [apply Permutation_rev|]. constructor. apply Permutation_rev.
    Qed.

    Lemma lex_prefix p l r : lexless lt (p ++ l) (p ++ r) <-> lexless lt l r.
    Proof.
      induction p as [|x p IH]; [reflexivity|]. cbn [app]. split.
      - inversion 1; subst; [rewrite (lt_irr lt W) in *; discriminate|now apply IH].
      - intro H. apply lex_there; [apply (lt_irr lt W)|apply (lt_irr lt W)|now apply IH].
    Qed.

    Lemma step_less l l' : step l l' -> lexless lt l l'.
    Proof. intros (pre & a & s1 & b & s2 & -> & -> & _ & L & _). apply lex_prefix. now apply lex_here. Qed.

    (** Two lists in order split at the first difference. *)
    Lemma lex_split l q : lexless lt l q -> length l = length q ->
      exists p x y l1 q1, l = p ++ x :: l1 /\ q = p ++ y :: q1 /\ lt x y = true.
    Proof.
      induction 1 as [y r|x y l r L|x y l r N1 N2 L IH]; intro Len; cbn [length] in Len; [lia| |].
      - now exists [], x, y, l, r.
      - destruct IH as (p & x' & y' & l1 & q1 & -> & -> & Q); [lia|].
        pose proof (eq_of x y N1 N2). subst y. exists (x :: p), x', y', l1, q1. auto.
    Qed.

    Lemma step_least l l' q : step l l' -> Permutation l q -> lexless lt l q -> lexle l' q.
    Proof.
      intros (pre & a & s1 & b & s2 & El & El' & D & Lab & F2) P Lq.
      destruct (lex_split l q Lq (Permutation_length P)) as (p & x & y & l1 & q1 & E1 & E2 & Lxy).
      assert (Cmp : exists t, (pre = p ++ x :: t) \/ (exists t, p = pre ++ t)).
      { rewrite El in E1. clear -E1. revert p E1. induction pre as [|c pre IH]; intros p E1.
        - exists []. right. now exists p.
        - destruct p as [|d p]; cbn [app] in E1.
          + injection E1 as <- E1. exists pre. now left.
          + injection E1 as <- E1. destruct (IH p E1) as (t & [->|[t' ->]]); [now exists t; left|].
            exists []. right. now exists t'. }
      destruct Cmp as (t & [Ep|(t' & Ep)]).
      - (* the difference is in the common part *)
        right. rewrite El', E2, Ep, <- app_assoc. apply lex_prefix. cbn [app]. now apply lex_here.
      - rewrite Ep in *. rewrite <- app_assoc in E1, E2. rewrite El in E1. apply app_inv_head in E1.
        rewrite El, E2 in P. apply Permutation_app_inv_l in P.
        destruct t' as [|c t'].
        + cbn [app] in E1, E2, P. injection E1 as <- <-.
          (* y takes the place of a *)
          assert (Iy : In y (s1 ++ b :: s2)).
          { assert (In y (a :: s1 ++ b :: s2)) as [->|H] by (eapply Permutation_in; [symmetry; exact P|now left]); [|assumption].
            rewrite (lt_irr lt W) in Lxy. discriminate. }
          assert (By : lt y b = false).
          { apply in_app_iff in Iy. destruct Iy as [I1|[->|I2]].
            - clear -D I1 W. induction s1 as [|z s1 IH]; [destruct I1|]. cbn [app] in D. inversion D as [|? ? S F]; subst.
              destruct I1 as [->|I1]; [|now apply IH]. rewrite Forall_forall in F. apply F, in_app_iff. right. now left.
            - apply (lt_irr lt W).
            - rewrite Forall_forall in F2. rewrite F2 in Lxy by assumption. discriminate. }
          rewrite El', E2. destruct (lt b y) eqn:Eb; [right; apply lex_prefix; now apply lex_here|].
          pose proof (eq_of y b By Eb). subst y.
          assert (P' : Permutation (rev s2 ++ a :: rev s1) q1).
          { apply Permutation_cons_inv with b. rewrite <- P.
            transitivity (a :: b :: s1 ++ s2); [|constructor; apply Permutation_middle].
            transitivity (b :: a :: s1 ++ s2); [|constructor]. constructor.
            transitivity (a :: rev s2 ++ rev s1); [symmetry; apply Permutation_middle|]. constructor.
            transitivity (rev s1 ++ rev s2); [apply Permutation_app_comm|].
            apply Permutation_app; symmetry; apply Permutation_rev. }
          assert (S : sorted lt (rev s2 ++ a :: rev s1)).
          { assert (D' : descending (s1 ++ a :: s2)).
            { clear -D Lab F2 W. induction s1 as [|z s1 IH]; cbn [app] in *.
              - inversion D as [|? ? S F]; subst. constructor; [assumption|assumption].
              - inversion D as [|? ? S F]; subst. constructor; [now apply IH|].
                apply Forall_app in F. destruct F as [F1 F]. inversion F; subst.
                apply Forall_app. split; [assumption|]. constructor; [|assumption].
                apply (le_trans lt W a b z); [now apply (lt_asym lt W)|assumption]. }
            apply rev_sorted in D'. rewrite rev_app_distr in D'. cbn [rev] in D'. now rewrite <- app_assoc in D'. }
          destruct (ascending_least _ S _ P') as [->|L]; [now left|].
          right. apply lex_prefix. apply lex_there; try apply (lt_irr lt W). assumption.
        + (* the suffix is greatest already *)
          exfalso. cbn [app] in E1, E2, P. injection E1 as <- E1. apply Permutation_cons_inv in P.
          destruct (descending_greatest _ D _ P) as [Q|Q].
          * rewrite <- Q in E1. apply app_inv_head in E1. injection E1 as -> _. rewrite (lt_irr lt W) in Lxy. discriminate.
          * rewrite E1 in Q. apply lex_prefix in Q. inversion Q; subst;
              [pose proof (lt_asym lt W _ _ Lxy); congruence|congruence].
    Qed.

    (** ** All arrangements *)
    (** The number of elements of [u] less than [x]; a number for a list that
        grows with the lexicographical order. *)
    Definition below (u : list A) (x : A) : nat := length (filter (fun y => lt y x) u).
    Fixpoint value (u : list A) (l : list A) : nat :=
      match l with
      | [] => 0
      | x :: l => below u x * S (length u) ^ length l + value u l
      end.

    Lemma below_le u x : below u x <= length u.
    Proof. apply filter_le. Qed.

    Lemma value_bound u l : value u l < S (length u) ^ length l.
    Proof.
      induction l as [|x l IH]; cbn [value length]; [cbn; lia|].
      pose proof (below_le u x). rewrite Nat.pow_succ_r'. nia.
    Qed.

    Lemma below_mono u x y : lt x y = true -> In x u -> below u x < below u y.
    Proof.
      intros L. unfold below.
      assert (G : forall v, length (filter (fun z => lt z x) v) <= length (filter (fun z => lt z y) v)).
      { induction v as [|z v IH]; cbn [filter]; [lia|]. destruct (lt z x) eqn:E.
        - assert (Q : lt z y = true) by (destruct W as (_ & Tr & _); eapply Tr; eassumption).
          rewrite Q. cbn [length]. lia.
        - destruct (lt z y); cbn [length]; lia. }
      induction u as [|z u IH]; intros [].
      - subst z. cbn [filter]. rewrite (lt_irr lt W), L. cbn [length]. specialize (G u). lia.
      - specialize (IH H). cbn [filter]. destruct (lt z x) eqn:E.
        + assert (Q : lt z y = true) by (destruct W as (_ & Tr & _); eapply Tr; eassumption).
          rewrite Q. cbn [length]. lia.
        + destruct (lt z y); cbn [length]; lia.
    Qed.

    Lemma value_mono u l : forall r, incl l u -> length l = length r -> lexless lt l r -> value u l < value u r.
    Proof.
      induction l as [|x l IH]; intros r I Len L; inversion L as [|? y ? r' Q|? y ? r' N1 N2 L']; subst;
        cbn [length] in Len; try lia; cbn [value]; injection Len as Len; rewrite <- Len.
      - pose proof (below_mono u x y Q (I x ltac:(now left))). pose proof (value_bound u l). nia.
      - rewrite (eq_of x y N1 N2). assert (value u l < value u r'); [|lia].
        apply IH; try assumption. intros z Hz. apply I. now right.
    Qed.

    Lemma reach q : forall n l, value q q - value q l <= n -> Permutation l q -> lexle l q ->
      exists k, np_round lt k l = Ok (Some q).
    Proof.
      induction n as [|n IH]; intros l M P L.
      - destruct L as [->|L]; [now exists 0|].
        pose proof (value_mono q l q ltac:(intros z Hz; eapply Permutation_in; eassumption) (Permutation_length P) L). lia.
      - destruct L as [->|L]; [now exists 0|].
        destruct (next_ok l) as [[_ D]|(l' & E & S)].
        + exfalso. destruct (descending_greatest l D q P) as [->|Q]; [now apply (lex_irr lt W) in L|].
          apply (lex_irr lt W l). eapply (lex_trans lt W); eassumption.
        + destruct (IH l') as (k & Hk).
          * pose proof (step_less _ _ S) as Ls.
            assert (value q l < value q l').
            { apply value_mono; [intros z Hz; eapply Permutation_in; eassumption| |assumption].
              apply Permutation_length, step_perm. assumption. }
            lia.
          * rewrite <- P. symmetry. now apply step_perm.
          * now apply step_least with l.
          * exists (Datatypes.S k). cbn [np_round]. rewrite E. cbn [bind]. exact Hk.
    Qed.

    Lemma round_perm k : forall l q, np_round lt k l = Ok (Some q) -> Permutation l q /\ (k <> 0 -> lexless lt l q).
    Proof.
      induction k as [|k IH]; intros l q H; cbn [np_round] in H.
      - injection H as ->. split; [reflexivity|lia].
      - destruct (next_ok l) as [[E D]|(l' & E & S)]; rewrite E in H; cbn [bind] in H; [discriminate|].
        destruct (IH l' q H) as [P Q]. split.
        + rewrite <- P. now apply step_perm.
        + intros _. pose proof (step_less _ _ S) as Ls. destruct (Nat.eq_dec k 0) as [->|Nk].
          * cbn in H. injection H as ->. assumption.
          * apply (lex_trans lt W l l' q Ls). now apply Q.
    Qed.

    Lemma round_add j : forall k l q, np_round lt j l = Ok (Some q) -> np_round lt (j + k) l = np_round lt k q.
    Proof.
      induction j as [|j IH]; intros k l q H; cbn [np_round Nat.add] in *; [now injection H as ->|].
      destruct (next_ok l) as [[E D]|(l' & E & S)]; rewrite E in *; cbn [bind] in *; [discriminate|]. now apply IH.
    Qed.

    Lemma round_unique j k l q : np_round lt j l = Ok (Some q) -> np_round lt k l = Ok (Some q) -> j = k.
    Proof.
      assert (G : forall j k, j < k -> np_round lt j l = Ok (Some q) -> np_round lt k l = Ok (Some q) -> False).
      { clear j k. intros j k Hjk Hj Hk. replace k with (j + (k - j)) in Hk by lia.
        rewrite (round_add j (k - j) l q Hj) in Hk. apply round_perm in Hk. destruct Hk as [_ Hk].
        apply (lex_irr lt W q). apply Hk. lia. }
      intros Hj Hk. destruct (Nat.lt_trichotomy j k) as [L|[L|L]]; [exfalso; eapply G; eassumption|assumption|exfalso; eapply G; eassumption].
    Qed.
  End Perm.
End Proofs.
