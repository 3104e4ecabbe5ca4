(** Properties C53 - C60, C62, C63: ranges, spans, maps, tuples, type lists. *)
From Coq Require Import ZArith List Bool Lia.
From Verif Require Import Outcome IntTypes ListLemmas RangeModel RangeProofs
  MapModel MapProofs SeqModel SeqProofs.
Import ListNotations.
Local Open Scope Z_scope.

(** * C53 *)
(** irange(first, last): first, first+1, ..., last-1, for every integer type of
    at least the rank of int, signed or unsigned. *)
Theorem C53_irange : forall t first last fuel,
  2 <= bits t -> in_ity t first -> in_ity t last -> (Z.to_nat (last - first) <= fuel)%nat ->
  exists xs, iterate fuel t (fst (irange first last)) (snd (irange first last)) = Ok xs
  /\ length xs = Z.to_nat (last - first)
  /\ (forall i d, (i < length xs)%nat -> nth i xs d = first + Z.of_nat i)
  /\ (forall x, In x xs <-> first <= x < last).
Proof.
  intros t first last fuel Hb Hf Hl F.
  eexists. split; [apply irange_ok; (assumption || lia)|]. split; [apply progression_length|].
  rewrite progression_length. split.
  - intros i d Hi. rewrite progression_nth by assumption. lia.
  - intro x. rewrite progression_in. split; [intros (k & H & ->); lia|].
    intro H. exists (x - first). lia.
Qed.
Print Assumptions C53_irange.
Example C53_irange_case : iterate 10 uint32 (fst (irange 3 6)) (snd (irange 3 6)) = Ok [3; 4; 5]
  /\ in_ity uint32 3 /\ in_ity uint32 6.
Proof. vm_compute. repeat split; discriminate. Qed.

(** drange(first, last): first, first-1, ..., last, also when last = 0 and the
    type is unsigned; the two exclusions are the overflow of last - 1 and the
    range covering a whole unsigned type. *)
Theorem C53_drange : forall t first last fuel,
  0 < bits t -> in_ity t first -> in_ity t last ->
  (sgn t = true -> in_ity t (last - 1)) ->
  (sgn t = false -> first - last + 1 < 2 ^ bits t) ->
  (Z.to_nat (first - last + 1) <= fuel)%nat ->
  exists r xs, drange t first last = Ok r /\ iterate fuel t (fst r) (snd r) = Ok xs
  /\ length xs = Z.to_nat (first - last + 1)
  /\ (forall i d, (i < length xs)%nat -> nth i xs d = first - Z.of_nat i)
  /\ (forall x, In x xs <-> last <= x <= first).
Proof.
  intros t first last fuel Hb Hf Hl Ho Hm F.
  destruct (drange_ok t first last fuel Hb Hf Hl Ho Hm F) as (r & E & I).
  exists r. eexists. split; [exact E|]. split; [exact I|]. split; [apply progression_length|].
  rewrite progression_length. split.
  - intros i d Hi. rewrite progression_nth by assumption. lia.
  - intro x. rewrite progression_in. split; [intros (k & H & ->); lia|].
    intro H. exists (first - x). lia.
Qed.
Print Assumptions C53_drange.
Example C53_drange_case : (do r <- drange uint32 3 0; iterate 10 uint32 (fst r) (snd r)) = Ok [3; 2; 1; 0].
Proof. vm_compute. reflexivity. Qed.

(** The whole unsigned type: the range should have 2^w elements and is empty. *)
Theorem C53_drange_whole_type_refuted : forall w, 0 < w ->
  let t := {| bits := w; sgn := false |} in
  exists r, drange t (2 ^ w - 1) 0 = Ok r /\ forall fuel, iterate fuel t (fst r) (snd r) = Ok [].
Proof.
  intros w Hw t. assert (P : 0 < 2 ^ w) by (apply Z.pow_pos_nonneg; lia).
  unfold drange. rewrite (proj2 (Z.ltb_ge _ _)) by lia.
  rewrite iarith_unsigned by (reflexivity || exact Hw). cbn [bind].
  eexists. split; [reflexivity|]. intro fuel. cbn [fst snd].
  assert (E : wrap t (0 - 1) = 2 ^ w - 1).
  { unfold wrap, t, ilow. cbn [sgn bits]. cbv iota. rewrite Z.add_0_r. symmetry.
    apply Z.mod_unique with (-1); lia. }
  rewrite E. destruct fuel; cbn [iterate ivalue]; rewrite Z.eqb_refl; reflexivity.
Qed.
Print Assumptions C53_drange_whole_type_refuted.

(** irange with a positive step: exactly the terms below [last]. *)
Theorem C53_irange_step_up : forall t first last step fuel,
  1 < bits t -> in_ity t first -> in_ity t last -> in_ity t (last - first) ->
  0 < step -> in_ity t step ->
  let n := Z.max 0 (ceil_div (last - first) step) in
  in_ity t (step * n) -> in_ity t (first + step * n) -> (Z.to_nat n <= fuel)%nat ->
  exists r xs, irange_step t first last step = Ok r /\ iterate fuel t (fst r) (snd r) = Ok xs
  /\ (forall i d, (i < length xs)%nat -> nth i xs d = first + Z.of_nat i * step)
  /\ (forall x, In x xs <-> exists k, 0 <= k /\ x = first + k * step /\ x < last).
Proof.
  intros t first last step fuel Hb Hf Hl Hd Hs Hst n Hp Hn F.
  destruct (irange_step_up t first last step fuel Hb Hf Hl Hd Hs Hst Hp Hn F) as (r & E & I).
  exists r. eexists. split; [exact E|]. split; [exact I|]. rewrite progression_length. split.
  - intros i d Hi. now apply progression_nth.
  - intro x. rewrite progression_in. pose proof (ceil_div_spec (last - first) step Hs) as C.
    fold n in I |- *. set (c := ceil_div (last - first) step) in *.
    split; intros (k & H).
    + destruct H as [H ->]. exists k. subst n. nia.
    + destruct H as (H & -> & L). exists k. subst n. nia.
Qed.
Print Assumptions C53_irange_step_up.
Example C53_irange_step_case : (do r <- irange_step int32 (-3) 9 5; iterate 10 int32 (fst r) (snd r)) = Ok [-3; 2; 7].
Proof. vm_compute. reflexivity. Qed.

(** irange with a negative step over signed types: exactly the terms not
    below [last] (inclusive bound, as documented). *)
Theorem C53_irange_step_down : forall t first last step fuel,
  1 < bits t -> sgn t = true -> in_ity t first -> in_ity t last -> in_ity t (last - first) ->
  step < 0 -> in_ity t step ->
  let n := Z.max 0 ((first - last) / (- step) + 1) in
  in_ity t n -> in_ity t (step * n) -> in_ity t (first + step * n) -> (Z.to_nat n <= fuel)%nat ->
  exists r xs, irange_step t first last step = Ok r /\ iterate fuel t (fst r) (snd r) = Ok xs
  /\ (forall i d, (i < length xs)%nat -> nth i xs d = first + Z.of_nat i * step)
  /\ (forall x, In x xs <-> exists k, 0 <= k /\ x = first + k * step /\ last <= x).
Proof.
  intros t first last step fuel Hb Sg Hf Hl Hd Hs Hst n Hin Hp Hn F.
  destruct (irange_step_down t first last step fuel Hb Sg Hf Hl Hd Hs Hst Hin Hp Hn F) as (r & E & I).
  exists r. eexists. split; [exact E|]. split; [exact I|]. rewrite progression_length. split.
  - intros i d Hi. now apply progression_nth.
  - intro x. rewrite progression_in.
    pose proof (Z.div_mod (first - last) (- step) ltac:(lia)) as C1.
    pose proof (Z.mod_pos_bound (first - last) (- step) ltac:(lia)) as C2.
    fold n in I |- *. set (c := (first - last) / - step) in *.
    split; intros (k & H).
    + destruct H as [H ->]. exists k. subst n. nia.
    + destruct H as (H & -> & L). exists k. subst n. nia.
Qed.
Print Assumptions C53_irange_step_down.
Example C53_irange_down_case : (do r <- irange_step int32 9 2 (-3); iterate 10 int32 (fst r) (snd r)) = Ok [9; 6; 3].
Proof. vm_compute. reflexivity. Qed.

(** Findings: a bound that is representable although first + step * n is not
    makes the signed computation undefined and the unsigned range empty; a
    negative step over an unsigned type yields one element only; and size() of
    an unsigned drange fails its assertion. *)
Theorem C53_irange_step_overflow_refuted :
  irange_step int32 0 (2 ^ 31 - 1) 2 = UB
  /\ (do r <- irange_step uint32 0 (2 ^ 32 - 1) 2; iterate 10 uint32 (fst r) (snd r)) = Ok []
  /\ (do r <- irange_step uint32 5 2 (-1); iterate 10 uint32 (fst r) (snd r)) = Ok [5]
  /\ (do r <- drange uint32 5 0; irange_size uint32 r) = AssertFail.
Proof. vm_compute. auto. Qed.
Print Assumptions C53_irange_step_overflow_refuted.

Theorem C53_step_zero_rejected : forall t first last, irange_step t first last 0 = AssertFail.
Proof. reflexivity. Qed.

(** size() of a range over a signed type is the number of its elements. *)
Theorem C53_size_signed : forall t first s n, 1 < bits t -> sgn t = true -> s <> 0 ->
  in_ity t s -> in_ity t (s * n) -> in_ity t n ->
  irange_size t ({| ivalue := first; istep := s |}, {| ivalue := first + s * n; istep := s |}) = Ok n.
Proof. intros t first s n. exact (iiter_diff_ok t first s n). Qed.
Print Assumptions C53_size_signed.
Example C53_size_case : (do r <- irange_step int32 (-3) 9 5; irange_size int32 r) = Ok 3.
Proof. vm_compute. reflexivity. Qed.

(** * C54 *)
Theorem C54_filtered_forward_backward : forall (A : Type) (pred : A -> bool) xs,
  fr_list pred xs = Ok (filter pred xs) /\ fr_rlist pred xs = Ok (rev (filter pred xs)).
Proof. intros A pred xs. split; [apply fr_list_ok|apply fr_rlist_ok]. Qed.
Print Assumptions C54_filtered_forward_backward.

(** A valid position is the end or a position of an element satisfying the
    predicate; ++ and -- are inverse on them. *)
Theorem C54_filtered_step_inverse : forall (A : Type) (pred : A -> bool) xs p q,
  (p = length xs \/ exists a, nth_error xs p = Some a /\ pred a = true) ->
  (fr_next pred xs p = Ok q -> fr_prev pred (length xs) xs q = Ok p)
  /\ ((p <= length xs)%nat ->
      (exists i a, (i < p)%nat /\ nth_error xs i = Some a /\ pred a = true) ->
      fr_prev pred (length xs) xs p = Ok q -> fr_next pred xs q = Ok p).
Proof.
  intros A pred xs p q V. split.
  - intro N. now apply fr_next_prev.
  - intros. now apply fr_prev_next.
Qed.
Print Assumptions C54_filtered_step_inverse.
Example C54_case : fr_list Z.even [1; 2; 3; 4; 6; 7] = Ok [2; 4; 6] /\ fr_rlist Z.even [1; 2; 3; 4; 6; 7] = Ok [6; 4; 2]
  /\ fr_next Z.even [1; 2; 3; 4; 6; 7] 1 = Ok 3%nat /\ fr_prev Z.even 6 [1; 2; 3; 4; 6; 7] 3 = Ok 1%nat.
Proof. vm_compute. auto. Qed.

(** * C55 *)
(** Reference: the lexicographical order in which a proper prefix is smaller. *)
Fixpoint lex_ref {A} (op : A -> A -> Z) (l r : list A) : Z :=
  match l, r with
  | [], [] => 0
  | [], _ :: _ => -1
  | _ :: _, [] => 1
  | x :: l, y :: r => if op x y =? 0 then lex_ref op l r else op x y
  end.

(** [l] is a proper prefix of [r] up to the element comparison. *)
Definition proper_prefix {A} (op : A -> A -> Z) (l r : list A) : Prop :=
  (length l < length r)%nat /\ forall i x y, nth_error l i = Some x -> nth_error r i = Some y -> op x y = 0.

(** Agreement with the reference exactly when no range is a proper prefix of
    the other; the opposite sign otherwise. *)
Theorem C55_compare_vs_reference : forall (A : Type) (op : A -> A -> Z) l r,
  order3 op ->
  (~ proper_prefix op l r -> ~ proper_prefix op r l -> lex_compare_range op l r = lex_ref op l r)
  /\ (proper_prefix op l r \/ proper_prefix op r l -> lex_compare_range op l r = - lex_ref op l r
      /\ lex_ref op l r <> 0).
Proof.
  intros A op l r O. revert r. induction l as [|x l IH]; intros [|y r].
  - split; [reflexivity|]. intros [[H _]|[H _]]; simpl in H; lia.
  - split; [|intros _; split; [reflexivity|discriminate]].
    intros H _. exfalso. apply H. split; [simpl; lia|]. intros i a b Ha. destruct i; discriminate.
  - split; [|intros _; split; [reflexivity|discriminate]].
    intros _ H. exfalso. apply H. split; [simpl; lia|]. intros i a b Ha. destruct i; discriminate.
  - cbn [lex_compare_range lex_ref]. cbv zeta.
    pose proof (o3_anti _ O x y) as AS.
    destruct (Z.eqb_spec (op x y) 0) as [E|E].
    + assert (E' : op y x = 0) by lia.
      assert (P : forall a b l r, op a b = 0 ->
                 proper_prefix op (a :: l) (b :: r) <-> proper_prefix op l r).
      { intros a b l0 r0 E0. unfold proper_prefix. split; intros [L H]; (split; [simpl in *; lia|]).
        - intros i u v Hu Hv. exact (H (S i) u v Hu Hv).
        - intros [|i] u v Hu Hv; simpl in *; [congruence|]. eapply H; eassumption. }
      rewrite !P by assumption. apply IH.
    + split; [reflexivity|]. intros [[_ H]|[_ H]]; exfalso.
      * apply E. exact (H 0%nat x y eq_refl eq_refl).
      * specialize (H 0%nat y x eq_refl eq_refl). lia.
Qed.
Print Assumptions C55_compare_vs_reference.

Theorem C55_compare_is_an_order : forall (A : Type) (op : A -> A -> Z), order3 op ->
  (forall l r, Z.sgn (lex_compare_range op l r) = - Z.sgn (lex_compare_range op r l))
  /\ (forall l r, lex_compare_range op l r = 0 <->
        length l = length r /\ forall i x y, nth_error l i = Some x -> nth_error r i = Some y -> op x y = 0)
  /\ (forall l m r, lex_compare_range op l m <= 0 -> lex_compare_range op m r <= 0 ->
        lex_compare_range op l r <= 0).
Proof.
  intros A op O. split; [now apply lex_anti|]. split; [|intros l m r; now apply lex_trans].
  intros l r. rewrite lex_zero. split; intros [L H]; (split; [assumption|]).
  - revert r L H. induction l as [|x l IH]; intros [|y r] L H i a b Ha Hb;
      try (destruct i; discriminate); try discriminate.
    destruct H as [H1 H2]. destruct i; simpl in Ha, Hb; [congruence|].
    eapply IH; try eassumption. now injection L.
  - revert r L H. induction l as [|x l IH]; intros [|y r] L H; try discriminate; [exact I|].
    split; [exact (H 0%nat x y eq_refl eq_refl)|]. apply IH; [now injection L|].
    intros i a b Ha Hb. exact (H (S i) a b Ha Hb).
Qed.
Print Assumptions C55_compare_is_an_order.

(** The comparison for sorting is a strict order that agrees with it. *)
Theorem C55_is_less_is_an_order : forall (A : Type) (op : A -> A -> Z), order3 op ->
  (forall l, is_less_range op l l = false)
  /\ (forall l r, is_less_range op l r = true -> is_less_range op r l = false)
  /\ (forall l m r, is_less_range op l m = true -> is_less_range op m r = true -> is_less_range op l r = true)
  /\ (forall l r, is_less_range op l r = false -> is_less_range op r l = false ->
        length l = length r /\ forall i x y, nth_error l i = Some x -> nth_error r i = Some y -> op x y = 0).
Proof.
  intros A op O. destruct (C55_compare_is_an_order A op O) as (H1 & H2 & H3). unfold is_less_range.
  split; [intros l; apply Z.ltb_ge; specialize (H1 l l); lia|].
  split; [intros l r; rewrite Z.ltb_lt, Z.ltb_ge; specialize (H1 l r); lia|]. split.
  - intros l m r. rewrite !Z.ltb_lt. intros L M. pose proof (H3 l m r ltac:(lia) ltac:(lia)) as LR.
    destruct (Z.eq_dec (lex_compare_range op l r) 0) as [E|E]; [|lia]. exfalso.
    specialize (H1 l r) as S1. assert (R : lex_compare_range op r l <= 0) by (rewrite E in S1; lia).
    specialize (H3 m r l ltac:(lia) R). specialize (H1 l m). lia.
  - intros l r. rewrite !Z.ltb_ge. intros L R. apply H2. specialize (H1 l r). lia.
Qed.
Print Assumptions C55_is_less_is_an_order.
(** The order on integers satisfies the hypothesis; "1" vs "1,2" is wrong. *)
Definition zcmp (x y : Z) : Z := Z.sgn (x - y).
Example C55_zcmp_order : order3 zcmp.
Proof. constructor; unfold zcmp; intros; lia. Qed.
Theorem C55_prefix_refuted :
  exists l r : list Z, proper_prefix zcmp l r /\ lex_compare_range zcmp l r = 1
    /\ is_less_range zcmp l r = false /\ is_less_range zcmp r l = true.
Proof.
  exists [1], [1; 2]. split; [|vm_compute; auto]. split; [simpl; lia|].
  intros [|i] x y Hx Hy; simpl in *; [injection Hx as <-; injection Hy as <-; reflexivity|].
  destruct i; discriminate.
Qed.
Print Assumptions C55_prefix_refuted.
Example C55_case_is_less : is_less_range zcmp [1; 2; 3] [1; 3] = true /\ is_less_range zcmp [1; 3] [2] = true /\ is_less_range zcmp [1; 3] [1; 3] = false.
Proof. auto. Qed.
Example C55_case : lex_compare_range zcmp [1; 2; 3] [1; 3] = -1 /\ lex_ref zcmp [1; 2; 3] [1; 3] = -1.
Proof. auto. Qed.

(** * C56 *)
Theorem C56_tuple_lexicographical : forall (A : nat -> Type) (ops : forall i, A i -> A i -> Z) n,
  (1 <= n)%nat -> (forall i, order3 (ops i)) ->
  (forall l r, compare_tuple A ops n l r = 0 <-> forall i, (i < n)%nat -> ops i (l i) (r i) = 0)
  /\ (forall l r j, (j < n)%nat -> ops j (l j) (r j) <> 0 ->
        (forall i, (i < j)%nat -> ops i (l i) (r i) = 0) -> compare_tuple A ops n l r = ops j (l j) (r j))
  /\ (forall l r, Z.sgn (compare_tuple A ops n l r) = - Z.sgn (compare_tuple A ops n r l))
  /\ (forall l m r, compare_tuple A ops n l m <= 0 -> compare_tuple A ops n m r <= 0 ->
        compare_tuple A ops n l r <= 0).
Proof.
  intros A ops n Hn O. unfold compare_tuple. split; [|split; [|split]].
  - intros l r. rewrite compare_from_zero. split; intros H i Hi; apply H; lia.
  - intros l r j Hj N Z0.
    destruct (compare_from_spec A ops (n - 1) 0 l r) as (k & R & C & Zk & Nk). rewrite C.
    destruct (PeanoNat.Nat.lt_trichotomy j k) as [X|[->|X]]; [|reflexivity|].
    + exfalso. apply N. apply Zk. lia.
    + exfalso. apply Nk; [lia|]. apply Z0. assumption.
  - intros. now apply compare_from_anti.
  - intros l m r. now apply compare_from_trans.
Qed.
Print Assumptions C56_tuple_lexicographical.

Theorem C56_tuple_equal : forall (A : nat -> Type) (eqs : forall i, A i -> A i -> bool) n l r,
  is_equal_tuple A eqs n l r = true <-> forall i, (i < n)%nat -> eqs i (l i) (r i) = true.
Proof. intros. apply is_equal_tuple_ok. Qed.
Print Assumptions C56_tuple_equal.

(** A tuple (integer, boolean). *)
Definition c56_ty (i : nat) : Type := match i with O => Z | _ => bool end.
Definition c56_ops (i : nat) : c56_ty i -> c56_ty i -> Z :=
  match i with O => zcmp | S _ => fun a b => zcmp (b2z a) (b2z b) end.
Definition c56_tup (x : Z) (b : bool) : tup c56_ty :=
  fun i => match i as i return c56_ty i with O => x | S _ => b end.
Example C56_case : (forall i, order3 (c56_ops i))
  /\ compare_tuple c56_ty c56_ops 2 (c56_tup 3 true) (c56_tup 3 false) = 1
  /\ compare_tuple c56_ty c56_ops 2 (c56_tup 2 true) (c56_tup 3 false) = -1.
Proof.
  split; [|vm_compute; auto]. intros [|i]; [apply C55_zcmp_order|].
  constructor; simpl; unfold zcmp; intros; lia.
Qed.

(** * C57 *)
(** Spans over an array; a span is valid if it lies inside of the array. *)
Theorem C57_subspans : forall (A : Type) (arr : list A) s,
  Z.of_nat (length arr) < 2 ^ 64 -> span_in (Z.of_nat (length arr)) s ->
  (forall k, 0 <= k <= sp_size s -> exists s', sp_first s k = Ok s'
     /\ span_in (Z.of_nat (length arr)) s' /\ span_view arr s' = firstn (Z.to_nat k) (span_view arr s))
  /\ (forall k, 0 <= k <= sp_size s -> exists s', sp_last (Z.of_nat (length arr)) s k = Ok s'
     /\ span_in (Z.of_nat (length arr)) s'
     /\ span_view arr s' = skipn (Z.to_nat (sp_size s - k)) (span_view arr s))
  /\ (forall o k, 0 <= o -> 0 <= k -> o + k <= sp_size s -> exists s',
       sp_subspan (Z.of_nat (length arr)) s o k = Ok s' /\ span_in (Z.of_nat (length arr)) s'
       /\ span_view arr s' = firstn (Z.to_nat k) (skipn (Z.to_nat o) (span_view arr s)))
  /\ (forall o, 0 <= o <= sp_size s -> exists s',
       sp_subspan1 (Z.of_nat (length arr)) s o = Ok s' /\ span_in (Z.of_nat (length arr)) s'
       /\ span_view arr s' = skipn (Z.to_nat o) (span_view arr s)).
Proof.
  intros A arr s Ha H. split; [|split; [|split]].
  - intros k Hk. now apply sp_first_ok.
  - intros k Hk. destruct (sp_last_ok arr s k H Hk) as (s' & E & I & _ & V). eauto.
  - intros o k Ho Hk Hs. destruct (sp_subspan_ok arr s o k Ha H Ho Hk Hs) as (s' & E & I & _ & V). eauto.
  - intros o Ho. unfold sp_subspan1, size_wrap. pose proof H as (H1 & H2 & H3).
    rewrite Z.mod_small by lia.
    destruct (sp_subspan_ok arr s o (sp_size s - o) Ha H) as (s' & E & I & _ & V); try lia.
    exists s'. split; [exact E|]. split; [exact I|]. rewrite V. apply firstn_all2.
    rewrite skipn_length. unfold span_view. rewrite firstn_length, skipn_length. lia.
Qed.
Print Assumptions C57_subspans.

Theorem C57_out_of_bounds_rejected : forall n s,
  (forall k, sp_size s < k -> sp_first s k = AssertFail /\ sp_last n s k = AssertFail)
  /\ (forall o k, 0 <= o -> 0 <= k -> sp_size s < o + k -> o + k < 2 ^ 64 ->
        sp_subspan n s o k = AssertFail).
Proof.
  intros n s. split.
  - intros k H. destruct (sp_rejects s k H) as [A B]. auto.
  - intros. now apply sp_subspan_rejects.
Qed.
Print Assumptions C57_out_of_bounds_rejected.

Example C57_case : span_in 5 {| sp_data := 1; sp_size := 3 |}
  /\ span_view [10; 11; 12; 13; 14] {| sp_data := 1; sp_size := 3 |} = [11; 12; 13]
  /\ sp_subspan 5 {| sp_data := 1; sp_size := 3 |} 1 2 = Ok {| sp_data := 2; sp_size := 2 |}.
Proof. vm_compute. repeat split; discriminate. Qed.

(** Finding: subspan(offset) with offset = size + 1 passes the assertion of a
    span that is not at the end of its array, and returns a view of 2^64 - 1
    elements; subspan(offset, count) with a wrapping sum likewise. *)
Theorem C57_subspan_wrap_refuted :
  exists s s', span_in 5 s /\ sp_subspan1 5 s (sp_size s + 1) = Ok s' /\ ~ span_in 5 s'
  /\ exists s'', sp_subspan 5 s 2 (2 ^ 64 - 1) = Ok s'' /\ ~ span_in 5 s''.
Proof.
  exists {| sp_data := 1; sp_size := 3 |}. eexists. split; [vm_compute; repeat split; discriminate|].
  split; [vm_compute; reflexivity|]. split; [unfold span_in; cbn [sp_data sp_size]; lia|].
  eexists. split; [vm_compute; reflexivity|]. unfold span_in. cbn [sp_data sp_size]. lia.
Qed.
Print Assumptions C57_subspan_wrap_refuted.

(** * C58 *)
(** After any history [ks] of lookups on an empty map with at most 2^w
    (2^(w-1) for signed) distinct keys: there is a list of the distinct keys,
    without repetition, in order of first lookup, such that each lookup
    returned the position of its key (so ids are stable and dense) and invert
    maps the id back. *)
Theorem C58_accounting : forall (K : Type) (keq : K -> K -> bool) (vt : ity) ks,
  (forall a b, keq a b = true <-> a = b) -> 1 < bits vt ->
  let ds := distinct keq ks in
  Z.of_nat (length ds) <= ihigh vt -> Z.of_nat (length ds) <= 2 ^ 64 ->
  NoDup ds /\ (forall k, In k ds <-> In k ks) /\
  exists m ids, acc_run keq vt acc_empty ks = (m, ids)
  /\ Forall2 (fun k id => 0 <= id /\ nth_error ds (Z.to_nat id) = Some k) ks ids
  /\ Forall2 (fun k id => acc_invert m id = Ok k) ks ids.
Proof.
  intros K keq vt ks KE Hb ds B1 B2.
  destruct (acc_run_ok keq KE vt ks acc_empty []) as (m & js & E & S & F).
  { split; [reflexivity|]. split; [reflexivity|constructor]. }
  fold (distinct keq ks) in S, F. fold ds in S, F.
  split; [apply S|]. split.
  { intro k. unfold ds, distinct. rewrite (distinct_after_in keq KE). simpl. tauto. }
  exists m. eexists. split; [exact E|].
  assert (L : ilow vt <= 0).
  { unfold ilow. pose proof (Z.pow_pos_nonneg 2 (bits vt - 1) ltac:(lia) ltac:(lia)). destruct (sgn vt); lia. }
  clearbody ds. split.
  - clear E. induction F as [|k j ks' js' H F IH]; simpl; constructor; [|exact IH].
    assert (j < length ds)%nat by (apply nth_error_Some; congruence).
    rewrite wrap_id; [|lia|unfold in_ity; lia]. rewrite Nat2Z.id. split; [lia|assumption].
  - clear E. induction F as [|k j ks' js' H F IH]; simpl; constructor; [|exact IH].
    eapply acc_invert_ok; (eassumption || lia).
Qed.
Print Assumptions C58_accounting.

(** Order of first lookup: a key first looked up later has a larger position. *)
Theorem C58_accounting_order : forall (K : Type) (keq : K -> K -> bool) ks k,
  (forall a b, keq a b = true <-> a = b) -> ~ In k ks ->
  forall rest, nth_error (distinct keq (ks ++ k :: rest)) (length (distinct keq ks)) = Some k.
Proof.
  intros K keq ks k KE N rest. unfold distinct.
  rewrite distinct_after_app. cbn [distinct_after].
  assert (existsb (keq k) (distinct_after keq [] ks) = false) as ->.
  { destruct (existsb (keq k) (distinct_after keq [] ks)) eqn:E; [|reflexivity].
    apply (existsb_keq keq KE) in E. apply (distinct_after_in keq KE) in E. destruct E; contradiction. }
  destruct (distinct_after_prefix keq rest (distinct_after keq [] ks ++ [k])) as (t & ->).
  rewrite <- app_assoc, nth_error_app2 by lia. rewrite PeanoNat.Nat.sub_diag. reflexivity.
Qed.
Print Assumptions C58_accounting_order.
Example C58_case : acc_run Z.eqb int32 acc_empty [7; 5; 7; 9; 5]
  = ({| acc_range := [(7, 0); (5, 1); (9, 2)]; acc_inverse := [7; 5; 9] |}, [0; 1; 0; 2; 1])
  /\ distinct Z.eqb [7; 5; 7; 9; 5] = [7; 5; 9].
Proof. vm_compute. auto. Qed.

(** Finding: with a narrow value type ids wrap; with int8 and 129 keys the
    129th id is -128 and invert indexes out of bounds. *)
Theorem C58_narrow_value_refuted :
  exists ks m ids, acc_run Z.eqb int8 acc_empty ks = (m, ids) /\ last ids 0 = -128
  /\ acc_invert m (last ids 0) = UB.
Proof.
  exists (map Z.of_nat (seq 0 129)). do 2 eexists. split; [vm_compute; reflexivity|].
  vm_compute. auto.
Qed.
Print Assumptions C58_narrow_value_refuted.

(** * C59 *)
Theorem C59_composite_get_invert : forall (S1 S2 K1 K2 V : Type) (m1 : pmap S1 K1 K2) (m2 : pmap S2 K2 V) w,
  (forall s k, pm_get (comp_map m1 m2 w) s k = pm_get m2 (snd s) (pm_get m1 (fst s) k))
  /\ ((forall s k, pm_invert m1 s (pm_get m1 s k) = k) -> (forall s k, pm_invert m2 s (pm_get m2 s k) = k) ->
      forall s k, pm_invert (comp_map m1 m2 w) s (pm_get (comp_map m1 m2 w) s k) = k)
  /\ ((forall s v, pm_get m1 s (pm_invert m1 s v) = v) -> (forall s v, pm_get m2 s (pm_invert m2 s v) = v) ->
      forall s v, pm_get (comp_map m1 m2 w) s (pm_invert (comp_map m1 m2 w) s v) = v).
Proof.
  intros. split; [reflexivity|]. split; intros H1 H2 s x; simpl.
  - now rewrite H2, H1.
  - now rewrite H1, H2.
Qed.
Print Assumptions C59_composite_get_invert.

(** put through the second map: observed by every key with the same
    intermediate key, and by no other. *)
Theorem C59_composite_put2 : forall (S1 S2 K1 K2 V : Type) (m1 : pmap S1 K1 K2) (m2 : pmap S2 K2 V),
  map_laws m2 -> forall s k v k',
  (pm_get m1 (fst s) k' = pm_get m1 (fst s) k ->
     pm_get (comp_map m1 m2 true) (pm_put (comp_map m1 m2 true) s k v) k' = v)
  /\ (pm_get m1 (fst s) k' <> pm_get m1 (fst s) k ->
     pm_get (comp_map m1 m2 true) (pm_put (comp_map m1 m2 true) s k v) k'
     = pm_get (comp_map m1 m2 true) s k').
Proof.
  intros S1 S2 K1 K2 V m1 m2 L s k v k'. simpl. split; intro H.
  - rewrite H. apply (ml_same _ L).
  - apply (ml_other _ L). congruence.
Qed.
Print Assumptions C59_composite_put2.

(** put through the first map, when the second is only invertible. *)
Theorem C59_composite_put1 : forall (S1 S2 K1 K2 V : Type) (m1 : pmap S1 K1 K2) (m2 : pmap S2 K2 V),
  map_laws m1 -> (forall s v, pm_get m2 s (pm_invert m2 s v) = v) -> forall s k v k',
  pm_get (comp_map m1 m2 false) (pm_put (comp_map m1 m2 false) s k v) k = v
  /\ (k <> k' -> pm_get (comp_map m1 m2 false) (pm_put (comp_map m1 m2 false) s k v) k'
                 = pm_get (comp_map m1 m2 false) s k').
Proof.
  intros S1 S2 K1 K2 V m1 m2 L I s k v k'. simpl. split.
  - rewrite (ml_same _ L). apply I.
  - intro N. now rewrite (ml_other _ L).
Qed.
Print Assumptions C59_composite_put1.

(** Instances meeting the hypotheses: an associative container is a lawful
    writable map; the shift by a constant is an invertible map. *)
Theorem C59_associative_container_laws : forall (K V : Type) (keq : K -> K -> bool) (dflt : V) (k0 : K),
  (forall a b, keq a b = true <-> a = b) ->
  map_laws {| pm_get := fun (m : list (K * V)) k => pac_get keq dflt m k;
              pm_put := fun m k v => pac_put keq m k v; pm_invert := fun _ _ => k0 |}.
Proof.
  intros K V keq dflt k0 KE. constructor; simpl; unfold pac_get, pac_put; intros.
  - now rewrite a_find_assign_same.
  - now rewrite a_find_assign_other.
Qed.
Print Assumptions C59_associative_container_laws.

Definition c59_shift : pmap unit Z Z :=
  {| pm_get := fun _ k => k - 10; pm_put := fun s _ _ => s; pm_invert := fun _ v => v + 10 |}.
Definition c59_assoc : pmap (list (Z * Z)) Z Z :=
  {| pm_get := fun m k => pac_get Z.eqb 0 m k; pm_put := fun m k v => pac_put Z.eqb m k v; pm_invert := fun _ _ => 0 |}.
Example C59_case :
  let m := comp_map c59_shift c59_assoc true in
  pm_get m (pm_put m (pm_put m (tt, []) 13 7) 12 5) 13 = 7
  /\ pm_get m (pm_put m (pm_put m (tt, []) 13 7) 12 5) 14 = 0
  /\ (forall s k, pm_invert c59_shift s (pm_get c59_shift s k) = k).
Proof. cbn. split; [reflexivity|]. split; [reflexivity|]. intros. lia. Qed.

(** shift_map: invert undoes get whenever the value type is not narrower than
    the key type, for all key types (promotion included); only a signed key
    type of the rank of int or more needs the difference not to overflow. *)
Theorem C59_shift_map : forall kt vt offset key,
  0 < bits kt -> bits kt <= 16 \/ 32 <= bits kt -> bits kt <= bits vt ->
  in_ity kt key -> in_ity kt offset ->
  (sgn kt = true -> 32 <= bits kt -> in_ity kt (key - offset)) ->
  exists v, shift_get kt vt offset key = Ok v /\ in_ity vt v /\ shift_invert kt vt offset v = Ok key.
Proof. exact (fun kt vt o k => shift_wrapped kt vt o k). Qed.
Print Assumptions C59_shift_map.
Example C59_shift_case : shift_get uint32 int64 10 3 = Ok (2 ^ 32 - 7)
  /\ shift_invert uint32 int64 10 (2 ^ 32 - 7) = Ok 3
  /\ shift_get uint8 uint8 200 100 = Ok 156 /\ shift_invert uint8 uint8 200 156 = Ok 100.
Proof. vm_compute. auto. Qed.
(** The width hypothesis is needed. *)
Example C59_shift_narrow : shift_get int32 uint8 0 300 = Ok 44 /\ shift_invert int32 uint8 0 44 = Ok 44.
Proof. vm_compute. auto. Qed.

(** Iteration of a composite map: pairs (k, get k) in both implementations. *)
Theorem C59_composite_range : forall (S1 S2 K1 K2 V : Type) (m1 : pmap S1 K1 K2) (m2 : pmap S2 K2 V) w s1 s2,
  (forall r1, Forall (fun p => snd p = pm_get m1 s1 (fst p)) r1 ->
     map fst (comp_range1 m2 s2 r1) = map fst r1 /\
     Forall (fun p => snd p = pm_get (comp_map m1 m2 w) (s1, s2) (fst p)) (comp_range1 m2 s2 r1))
  /\ ((forall v, pm_get m1 s1 (pm_invert m1 s1 v) = v) ->
      forall r2, Forall (fun p => snd p = pm_get m2 s2 (fst p)) r2 ->
      map snd (comp_range2 m1 s1 r2) = map snd r2 /\
      Forall (fun p => snd p = pm_get (comp_map m1 m2 w) (s1, s2) (fst p)) (comp_range2 m1 s1 r2)).
Proof.
  intros. split.
  - intros r1 F. unfold comp_range1. split; [rewrite map_map; reflexivity|].
    apply Forall_forall. intros p Hp. apply in_map_iff in Hp as (q & <- & Hq). simpl.
    rewrite Forall_forall in F. now rewrite <- (F q Hq).
  - intros I r2 F. unfold comp_range2. split; [rewrite map_map; reflexivity|].
    apply Forall_forall. intros p Hp. apply in_map_iff in Hp as (q & <- & Hq). simpl.
    rewrite Forall_forall in F. rewrite I. now apply F.
Qed.
Print Assumptions C59_composite_range.
Example C59_range_case :
  comp_range1 c59_assoc [(3, 7)] [(13, 3); (14, 4)] = [(13, 7); (14, 0)]
  /\ Forall (fun p => snd p = pm_get c59_shift tt (fst p)) [(13, 3); (14, 4)].
Proof. split; [reflexivity|]. repeat constructor. Qed.

(** * C60 *)
Theorem C60_at : forall (T : Type) (l : list T) i, type_at (length l) l i = nth_error l i.
Proof. intros. apply type_at_ok. lia. Qed.
Print Assumptions C60_at.

Theorem C60_slice : forall (T : Type) (l : list T) first last,
  ((first <= last <= length l)%nat ->
     types_slice (length l) l first last = Some (firstn (last - first) (skipn first l)))
  /\ ((last < first \/ length l < last)%nat -> types_slice (length l) l first last = None).
Proof. intros. split; intro H; [apply types_slice_ok|apply types_slice_first_out]; lia. Qed.
Print Assumptions C60_slice.

Theorem C60_prefix_suffix : forall (T : Type) (l : list T) n, (n <= length l)%nat ->
  prefix_t l n = Some (firstn n l) /\ suffix_t l n = Some (skipn (length l - n) l)
  /\ exists p s, prefix_t l n = Some p /\ suffix_t l (length l - n) = Some s /\ types_concat [p; s] = l.
Proof.
  intros T l n H. unfold prefix_t, suffix_t.
  assert (P : types_slice (length l) l 0 n = Some (firstn n l)).
  { rewrite types_slice_ok by lia. now rewrite PeanoNat.Nat.sub_0_r. }
  assert (S : forall k, (k <= length l)%nat -> types_slice (length l) l (length l - k) (length l) = Some (skipn (length l - k) l)).
  { intros k Hk. rewrite types_slice_ok by lia. f_equal. apply firstn_all2. rewrite skipn_length. lia. }
  split; [exact P|]. split.
  - destruct (PeanoNat.Nat.leb_spec n (length l)); [|lia]. now apply S.
  - exists (firstn n l), (skipn n l). split; [exact P|]. split.
    + destruct (PeanoNat.Nat.leb_spec (length l - n) (length l)); [|lia].
      rewrite S by lia. do 2 f_equal. lia.
    + rewrite types_concat_ok. simpl. rewrite app_nil_r. apply firstn_skipn.
Qed.
Print Assumptions C60_prefix_suffix.

Theorem C60_concat : forall (T : Type) (ls : list (list T)), types_concat ls = concat ls.
Proof. intros. apply types_concat_ok. Qed.
Print Assumptions C60_concat.
Example C60_case :
  type_at 20 (seq 0 20) 17 = Some 17%nat
  /\ types_slice 20 (seq 0 20) 5 16 = Some [5; 6; 7; 8; 9; 10; 11; 12; 13; 14; 15]%nat
  /\ types_concat [[1]; [2; 3]; []; [4]] = [1; 2; 3; 4].
Proof. vm_compute. auto. Qed.

(** * C62 *)
Theorem C62_cyclic : forall n p, 0 < n -> 0 <= p < n ->
  cyc_next n p = (p + 1) mod n /\ cyc_prev n p = (p - 1) mod n
  /\ cyc_prev n (cyc_next n p) = p /\ cyc_next n (cyc_prev n p) = p
  /\ (forall d, Z.abs d < n -> cyc_add n p d = Ok ((p + d) mod n))
  /\ (forall d, n <= Z.abs d -> cyc_add n p d = AssertFail)
  /\ (forall q, 0 <= q < n -> 0 <= cyc_diff n q p < n /\ cyc_add n p (cyc_diff n q p) = Ok q).
Proof.
  intros n p Hn Hp.
  assert (B : forall x, 0 <= x mod n < n) by (intro; apply Z.mod_pos_bound; lia).
  rewrite cyc_next_ok, cyc_prev_ok by assumption.
  rewrite cyc_prev_ok, cyc_next_ok by apply B.
  rewrite Zminus_mod_idemp_l, Zplus_mod_idemp_l.
  replace (p + 1 - 1) with p by lia. replace (p - 1 + 1) with p by lia.
  rewrite (Z.mod_small p n) by assumption.
  split; [reflexivity|]. split; [reflexivity|]. split; [reflexivity|]. split; [reflexivity|].
  split; [intros; now apply cyc_add_ok|]. split; [|intros q Hq; split].
  - intros d Hd. unfold cyc_add. rewrite (proj2 (Z.ltb_ge _ _)) by assumption. reflexivity.
  - rewrite cyc_diff_ok by assumption. apply B.
  - rewrite cyc_diff_ok by assumption. rewrite cyc_add_ok; [|assumption|].
    + rewrite Zplus_mod_idemp_r. replace (p + (q - p)) with q by lia. now rewrite Z.mod_small.
    + specialize (B (q - p)). lia.
Qed.
Print Assumptions C62_cyclic.
Example C62_case : cyc_next 5 4 = 0 /\ cyc_prev 5 0 = 4 /\ cyc_add 5 3 (-4) = Ok 4 /\ cyc_diff 5 1 3 = 3.
Proof. vm_compute. auto. Qed.

Theorem C62_cyclic_construct : forall n p, 0 < n -> 0 <= p <= n ->
  exists q, cyc_make n p = Ok q /\ q = p mod n.
Proof.
  intros n p Hn Hp. unfold cyc_make. rewrite (proj2 (Z.ltb_lt _ _)) by assumption. cbn [assert_then].
  eexists. split; [reflexivity|]. destruct (Z.eqb_spec p n) as [->|].
  - now rewrite Z.mod_same by lia.
  - now rewrite Z.mod_small by lia.
Qed.
Print Assumptions C62_cyclic_construct.

(** * C63 *)
Theorem C63_copy_range : forall (A : Type) (t src : list A),
  (length t = length src -> copy_range t src = Ok src)
  /\ (length t <> length src -> copy_range t src = AssertFail).
Proof.
  intros A t src. split; [apply copy_range_ok|]. intro H. unfold copy_range.
  apply PeanoNat.Nat.eqb_neq in H. now rewrite H.
Qed.
Print Assumptions C63_copy_range.

(** Copying through an output iterator changes exactly the overwritten slots
    and returns the advanced iterator; it stays in bounds iff it fits. *)
Theorem C63_copy_iterator : forall (A : Type) (src t : list A) p, (p <= length t)%nat ->
  ((p + length src <= length t)%nat ->
     copy_to t p src = Ok (firstn p t ++ src ++ skipn (p + length src) t, (p + length src)%nat))
  /\ ((length t < p + length src)%nat -> copy_to t p src = UB).
Proof.
  intros A src t p Hp. split; [now apply copy_to_ok|]. revert t p Hp.
  induction src as [|x src IH]; intros t p Hp H; cbn [copy_to length] in *; [lia|].
  destruct (PeanoNat.Nat.ltb_spec p (length t)); [|reflexivity].
  assert (Len : length (firstn p t ++ x :: skipn (S p) t) = length t).
  { rewrite app_length, firstn_length. cbn [length]. rewrite skipn_length. lia. }
  apply IH; lia.
Qed.
Print Assumptions C63_copy_iterator.
Example C63_case : copy_to [1; 2; 3; 4] 1 [8; 9] = Ok ([1; 8; 9; 4], 3%nat).
Proof. reflexivity. Qed.

Print Assumptions C53_step_zero_rejected.
