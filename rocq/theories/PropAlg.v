(** C142: searching, merging, extreme elements and permutations of ranges. *)
From Coq Require Import List Bool PeanoNat Lia ZArith Sorting.Permutation Sorting.Sorted.
From Verif Require Import Outcome ListLemmas AlgModel AlgProofs.
Import ListNotations.

(** count is the number of elements equal to the value; mismatch stops at the
    end of the longest common beginning. *)
Theorem C142_count_mismatch : forall A (eqb : A -> A -> bool) l r v,
  alg_count eqb l v = length (filter (fun x => eqb x v) l) /\
  exists k, alg_mismatch eqb l r 0 = (k, k) /\
    (forall i, i < k -> exists x y, nth_error l i = Some x /\ nth_error r i = Some y /\ eqb x y = true) /\
    (forall x y, nth_error l k = Some x -> nth_error r k = Some y -> eqb x y = false).
Proof.
  intros A eqb l r v. split; [unfold alg_count; now rewrite count_loop_ok|].
  exact (mismatch_ok eqb l r 0).
Qed.
Print Assumptions C142_count_mismatch.

(** lower_bound and upper_bound of a sorted range: the number of elements less
    than the value and of those not greater, so that between them lie exactly
    the equivalent elements; at most 1 + log2 n comparisons each. *)
Theorem C142_bounds : forall A (lt : A -> A -> bool) l v, weak_order lt -> sorted lt l ->
  exists lo up c c', alg_lower_bound lt l v = Ok (lo, c) /\ alg_upper_bound lt l v = Ok (up, c') /\
    lo = length (filter (fun x => lt x v) l) /\
    up = lo + length (filter (fun x => equivalent lt x v) l) /\ up <= length l /\
    (forall i x, nth_error l i = Some x ->
       (i < lo <-> lt x v = true) /\ (lo <= i < up <-> equivalent lt x v = true) /\ (up <= i <-> lt v x = true)) /\
    (l = [] -> c = 0 /\ c' = 0) /\ (l <> [] -> c <= 1 + Nat.log2 (length l) /\ c' <= 1 + Nat.log2 (length l)).
Proof.
  intros A lt l v W S. destruct (lower_ok lt l v W S) as (c & E & Lc). destruct (upper_ok lt l v W S) as (c' & E' & Lc').
  pose proof (equal_range_length lt l v W) as Eq. pose proof (filter_le (fun x => negb (lt v x)) l) as Le.
  eexists _, _, c, c'. split; [exact E|]. split; [exact E'|]. split; [reflexivity|]. split; [exact Eq|]. split; [exact Le|].
  split; [|split].
  - intros i x N. pose proof W as (I & Tr & Ng).
    assert (P1 : lt x v = (i <? length (filter (fun x => lt x v) l))).
    { revert i x N. apply (prefix_count lt (fun x => lt x v)); [|assumption].
      intros x y Yx Yv. cbv beta in *. destruct (Ng y x v Yv); congruence. }
    assert (P2 : negb (lt v x) = (i <? length (filter (fun x => negb (lt v x)) l))).
    { revert i x N P1. intros i x N _. revert i x N. apply (prefix_count lt (fun x => negb (lt v x))); [|assumption].
      intros x y Yx Yv. cbv beta in *. apply negb_true_iff in Yv. apply negb_true_iff.
      destruct (lt v x) eqn:Q; [|reflexivity]. destruct (Ng v y x Q); congruence. }
    unfold equivalent. rewrite andb_true_iff, !negb_true_iff.
    assert (Q : lt v x = true <-> negb (lt v x) = false) by (clear; destruct (lt v x); cbn; intuition congruence).
    assert (Q' : lt v x = false <-> negb (lt v x) = true) by (clear; destruct (lt v x); cbn; intuition congruence).
    rewrite Q, Q', P1, P2, !Nat.ltb_lt, !Nat.ltb_ge. lia.
  - intros ->. cbn in Lc, Lc'. lia.
  - intro Nl. assert (Z : length l <> 0) by (destruct l; [contradiction|discriminate]).
    unfold rounds in Lc, Lc'. destruct (Nat.eqb_spec (length l) 0); [contradiction|]. lia.
Qed.
Print Assumptions C142_bounds.

(** unique keeps the head of each group of consecutive elements related to it;
    a sorted range is left with each of its elements exactly once. *)
Theorem C142_unique : forall A (pred : A -> A -> bool) l,
  (exists gs, l = flat_map (fun g => fst g :: snd g) gs /\ alg_unique pred l = map fst gs /\ groups pred gs) /\
  forall lt, total_order lt -> sorted lt l -> (forall x y, pred x y = true <-> x = y) ->
    NoDup (alg_unique pred l) /\ (forall x, In x (alg_unique pred l) <-> In x l) /\ sorted lt (alg_unique pred l).
Proof.
  intros A pred l. split; [apply unique_ok|]. intros lt TO S PE.
  destruct (unique_ok pred l) as (gs & E & U & G1 & G2). rewrite U.
  assert (Sub : forall x, In x (map fst gs) <-> In x l).
  { rewrite E. intro x. rewrite in_map_iff, in_flat_map. split.
    - intros (g & <- & Hg). exists g. split; [assumption|now left].
    - intros (g & Hg & [<-|Hx]); [now exists g|]. exists g. split; [|assumption].
      rewrite Forall_forall in G1. specialize (G1 g Hg). rewrite Forall_forall in G1.
      apply PE. now apply G1. }
  assert (Sg : forall hs, sorted lt (flat_map (fun g : A * list A => fst g :: snd g) hs) -> sorted lt (map fst hs)).
  { clear. induction hs as [|[x ys] hs IH]; cbn [flat_map map fst snd]; [auto|]. cbn [app]. intro S.
    apply StronglySorted_inv in S. destruct S as [S F]. constructor.
    - apply IH. clear -S. induction ys as [|y ys IH]; [assumption|]. apply IH.
      cbn [app] in S. now apply StronglySorted_inv in S.
    - apply Forall_forall. intros z Hz. rewrite Forall_forall in F. apply F. apply in_app_iff. right.
      apply in_map_iff in Hz. destruct Hz as (g & <- & Hg). apply in_flat_map. exists g. split; [assumption|now left]. }
  assert (SU : sorted lt (map fst gs)) by (apply Sg; now rewrite <- E).
  split; [|split; [exact Sub|exact SU]].
  clear -TO SU G2 PE. induction SU as [|x l S IH F]; constructor.
  - intro Hx. destruct l as [|y l]; [destruct Hx|].
    assert (Nxy : x <> y).
    { intros ->. specialize (G2 0 y y eq_refl eq_refl). rewrite (proj2 (PE y y) eq_refl) in G2. discriminate. }
    destruct Hx as [->|Hx]; [contradiction|]. apply Nxy. apply (proj2 TO).
    + apply StronglySorted_inv in S. destruct S as [_ F']. rewrite Forall_forall in F'. now apply F'.
    + rewrite Forall_forall in F. apply F. now left.
  - apply IH. intros i a b Ha Hb. exact (G2 (Datatypes.S i) a b Ha Hb).
Qed.
Print Assumptions C142_unique.

(** merge of two sorted ranges: sorted, with exactly their elements, and
    equivalent elements of the first range before those of the second, each in
    their order. *)
Theorem C142_merge : forall A (lt : A -> A -> bool) l r, weak_order lt -> sorted lt l -> sorted lt r ->
  Permutation (l ++ r) (alg_merge lt l r) /\ sorted lt (alg_merge lt l r) /\
  forall v, filter (equivalent lt v) (alg_merge lt l r) =
            filter (equivalent lt v) l ++ filter (equivalent lt v) r.
Proof.
  intros A lt l r W Sl Sr. split; [apply merge_perm|]. split; [now apply merge_sorted|].
  intro v. now apply merge_stable.
Qed.
Print Assumptions C142_merge.

(** min_element and max_element give the first of several extreme elements,
    minmax_element the first least and the last greatest with at most
    3 (n - 1) / 2 comparisons; of an empty range all give its end. *)
Theorem C142_extremes : forall A (lt : A -> A -> bool) l, weak_order lt ->
  (l = [] -> alg_min_element lt l = length l /\ alg_max_element lt l = length l /\ alg_minmax_element lt l = (length l, length l, 0)) /\
  (l <> [] -> first_min lt l (alg_min_element lt l) /\ first_max lt l (alg_max_element lt l) /\
     exists i j c, alg_minmax_element lt l = (i, j, c) /\ first_min lt l i /\ last_max lt l j /\
       2 * c <= 3 * (length l - 1)).
Proof.
  intros A lt l W. split; [intros ->; auto|]. intro Nl.
  destruct l as [|x l]; [contradiction|]. cbn [alg_min_element alg_max_element].
  split; [|split].
  - destruct (min_loop_ok lt W l [x] (0, x) (single_min lt W x)) as (y & H). exists y. exact H.
  - destruct (max_loop_ok lt W l [x] (0, x) (single_max lt W x)) as (y & H). exists y. exact H.
  - destruct l as [|y l].
    + exists 0, 0, 0. split; [reflexivity|]. split; [exists x; exact (single_min lt W x)|].
      split; [exists x; exact (single_lmax lt W x)|]. cbn. lia.
    + pose proof (is_min_snoc lt W [x] (0, x) y (single_min lt W x)) as Mn.
      pose proof (is_lmax_snoc lt W [x] (0, x) y (single_lmax lt W x)) as Mx.
      cbn [snd length app] in Mn, Mx. cbn [alg_minmax_element].
      assert (G : forall mn mx, is_min lt [x; y] mn -> is_lmax lt [x; y] mx ->
        exists i j c, minmax_loop lt l 2 mn mx 1 = (i, j, c) /\ first_min lt (x :: y :: l) i /\
          last_max lt (x :: y :: l) j /\ 2 * c <= 3 * (length (x :: y :: l) - 1)).
      { intros mn mx H1 H2.
        destruct (minmax_loop_ok lt W (length l) l [x; y] mn mx 1 (le_n _) H1 H2) as (i & j & c & E & Hi & Hj & Hc).
        exists i, j, c. split; [exact E|]. split; [destruct Hi as (u & Hu); exists u; exact Hu|].
        split; [destruct Hj as (u & Hu); exists u; exact Hu|].
        cbn [length]. destruct (Nat.odd (length l)); lia. }
      destruct (lt y x) eqn:Eyx; apply G; assumption.
Qed.
Print Assumptions C142_extremes.

(** So the greatest elements that max_element and minmax_element give differ. *)
Theorem C142_max_tie_refuted :
  exists (lt : nat -> nat -> bool) l, weak_order lt /\
    alg_max_element lt l <> snd (fst (alg_minmax_element lt l)).
Proof.
  exists Nat.ltb, [3; 3]. split; [|vm_compute; discriminate].
  split; [intro; apply Nat.ltb_irrefl|]. split; intros x y z; rewrite !Nat.ltb_lt; lia.
Qed.
Print Assumptions C142_max_tie_refuted.

(** lexicographical_compare decides the lexicographical order, in which a proper
    beginning of a sequence comes before it; it is a strict weak order again. *)
Theorem C142_lexicographical : forall A (lt : A -> A -> bool), weak_order lt ->
  (forall l r, alg_lex lt l r = true <-> lexless lt l r) /\ weak_order (alg_lex lt) /\
  (forall l x r, alg_lex lt l (l ++ x :: r) = true) /\
  (total_order lt -> total_order (alg_lex lt)).
Proof.
  intros A lt W.
  assert (WO : weak_order (alg_lex lt)).
  { split; [|split].
    - intro l. destruct (alg_lex lt l l) eqn:E; [|reflexivity]. apply alg_lex_ok in E. now apply (lex_irr lt W) in E.
    - intros a b c. rewrite !alg_lex_ok. now apply lex_trans.
    - intros a b c. rewrite !alg_lex_ok. now apply lex_neg. }
  split; [intros l r; now apply alg_lex_ok|]. split; [assumption|]. split.
  - intros l x r. apply alg_lex_ok. induction l as [|y l IH]; cbn [app]; [constructor|].
    apply lex_there; try apply W. exact IH.
  - intro TO. split; [assumption|]. induction x as [|a x IH]; intros [|b y]; cbn [alg_lex]; try (intros; congruence).
    destruct (lt a b) eqn:E1; [discriminate|]. destruct (lt b a) eqn:E2; [discriminate|].
    intros H1 H2. rewrite (proj2 TO a b E1 E2). f_equal. now apply IH.
Qed.
Print Assumptions C142_lexicographical.

(** next_permutation gives the next arrangement in lexicographical order, or,
    after the last, returns false and leaves the first. *)
Theorem C142_next_permutation : forall A (lt : A -> A -> bool) l, total_order lt ->
  (exists l', alg_next_permutation lt l = Ok (true, l') /\ Permutation l l' /\ lexless lt l l' /\
     forall q, Permutation l q -> lexless lt l q -> l' = q \/ lexless lt l' q) \/
  (exists l', alg_next_permutation lt l = Ok (false, l') /\ Permutation l l' /\ sorted lt l' /\
     forall q, Permutation l q -> q = l \/ lexless lt q l).
Proof.
  intros A lt l TO. destruct (next_ok lt TO l) as [[E D]|(l' & E & S)].
  - right. exists (rev l). split; [assumption|]. split; [apply Permutation_rev|]. split; [now apply rev_sorted|].
    intros q P. exact (descending_greatest lt TO l D q P).
  - left. exists l'. split; [assumption|]. split; [now apply (step_perm lt)|]. split; [now apply (step_less lt TO)|].
    intros q P L. exact (step_least lt TO l l' q S P L).
Qed.
Print Assumptions C142_next_permutation.

(** Hence do { ... } while (next_permutation(r)), started with a sorted range,
    goes through every arrangement exactly once and ends with the range sorted. *)
Theorem C142_all_permutations : forall A (lt : A -> A -> bool) l, total_order lt -> sorted lt l ->
  (forall q, Permutation l q ->
     exists k, np_round lt k l = Ok (Some q) /\ forall k', np_round lt k' l = Ok (Some q) -> k' = k) /\
  (forall k q, np_round lt k l = Ok (Some q) -> Permutation l q) /\
  exists n q, np_round lt n l = Ok (Some q) /\ alg_next_permutation lt q = Ok (false, l) /\
    np_round lt (S n) l = Ok None.
Proof.
  intros A lt l TO S.
  assert (R : forall q, Permutation l q -> exists k, np_round lt k l = Ok (Some q)).
  { intros q P. apply (reach lt TO q (value lt q q) l); [lia|assumption|]. now apply ascending_least. }
  split; [|split].
  - intros q P. destruct (R q P) as (k & Hk). exists k. split; [assumption|]. intros k' Hk'.
    now apply (round_unique lt TO k' k l q).
  - intros k q H. now apply (round_perm lt TO) in H.
  - destruct (R (rev l) (Permutation_rev l)) as (n & Hn). exists n, (rev l). split; [assumption|].
    assert (E : alg_next_permutation lt (rev l) = Ok (false, l)).
    { destruct (next_ok lt TO (rev l)) as [[E _]|(l' & E & St)]; [now rewrite rev_involutive in E|].
      exfalso. assert (D : descending lt (rev l)).
      { clear -S. induction S as [|x l S IH F]; [constructor|]. cbn [rev].
        assert (G : forall m, descending lt m -> Forall (fun y => lt y x = false) m -> descending lt (m ++ [x])).
        { clear. induction 1 as [|y m S IH F]; intro G; cbn [app]; [repeat constructor|].
          inversion G; subst. constructor; [now apply IH|]. apply Forall_app. split; [assumption|]. now repeat constructor. }
        apply G; [assumption|]. now apply Forall_rev. }
      pose proof (step_less lt TO _ _ St) as L. pose proof (step_perm lt _ _ St) as P.
      destruct (descending_greatest lt TO _ D _ P) as [->|L']; [now apply (lex_irr lt (proj1 TO)) in L|].
      apply (lex_irr lt (proj1 TO) (rev l)). eapply (lex_trans lt (proj1 TO)); eassumption. }
    split; [assumption|]. replace (Datatypes.S n) with (n + 1) by lia.
    rewrite (round_add lt TO n 1 l _ Hn). cbn [np_round]. now rewrite E.
Qed.
Print Assumptions C142_all_permutations.

(** ** Cases *)
Lemma ltb_total : total_order Nat.ltb.
Proof.
  split; [split; [intro; apply Nat.ltb_irrefl|]; split; intros x y z; rewrite !Nat.ltb_lt; lia|].
  intros x y. rewrite !Nat.ltb_ge. lia.
Qed.
Example C142_case_orders : total_order Nat.ltb /\ sorted Nat.ltb [1; 2; 2; 5] /\
  weak_order (fun x y : nat * nat => fst x <? fst y).
Proof.
  split; [apply ltb_total|]. split; [repeat constructor|].
  split; [intro; apply Nat.ltb_irrefl|]. split; intros x y z; rewrite !Nat.ltb_lt; lia.
Qed.
Example C142_case :
  alg_lower_bound Nat.ltb [1; 2; 2; 2; 5] 2 = Ok (1, 3) /\ alg_upper_bound Nat.ltb [1; 2; 2; 2; 5] 2 = Ok (4, 3) /\
  alg_lower_bound Nat.ltb [1; 2; 2; 2; 5] 3 = Ok (4, 3) /\ alg_upper_bound Nat.ltb [] 3 = Ok (0, 0) /\
  alg_unique Nat.eqb [1; 2; 2; 1; 1] = [1; 2; 1] /\ alg_unique Nat.eqb [1; 2; 2; 2; 5] = [1; 2; 5] /\
  alg_merge (fun x y => fst x <? fst y) [(1, 0); (2, 0)] [(1, 1); (3, 1)] = [(1, 0); (1, 1); (2, 0); (3, 1)] /\
  alg_min_element Nat.ltb [4; 1; 1; 4] = 1 /\ alg_max_element Nat.ltb [4; 1; 1; 4] = 0 /\
  alg_minmax_element Nat.ltb [4; 1; 1; 4] = (1, 3, 4) /\ alg_minmax_element Nat.ltb [2; 1; 3] = (1, 2, 3) /\
  alg_lex Nat.ltb [1; 2] [1; 2; 0] = true /\ alg_lex Nat.ltb [1; 3] [1; 2; 0] = false /\
  alg_count Nat.eqb [1; 2; 1] 1 = 2 /\ alg_mismatch Nat.eqb [1; 2; 3] [1; 2; 4] 0 = (2, 2).
Proof. vm_compute. repeat split. Qed.
Example C142_case_permutations :
  alg_next_permutation Nat.ltb [1; 3; 2] = Ok (true, [2; 1; 3]) /\
  alg_next_permutation Nat.ltb [3; 2; 1] = Ok (false, [1; 2; 3]) /\
  map (fun k => np_round Nat.ltb k [1; 1; 2]) [0; 1; 2; 3] =
    [Ok (Some [1; 1; 2]); Ok (Some [1; 2; 1]); Ok (Some [2; 1; 1]); Ok None].
Proof. vm_compute. repeat split. Qed.
