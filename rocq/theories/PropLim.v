(** C118: limited input ranges and transformed iterators. *)
From Coq Require Import ZArith List Bool Lia.
From Verif Require Import Outcome IntTypes IterModel IterProofs LimModel.
Import ListNotations.
Local Open Scope Z_scope.

(** [reads b i xs j]: the elements xs are read one after another from i on, which leads to j;
    no position before j is the end. *)
Inductive reads {I V} (b : base I V) : I -> list V -> I -> Prop :=
| reads_nil i : reads b i [] i
| reads_cons i v j xs k : b_eq b i (b_null b) = false -> b_get b i = Ok v -> b_next b i = Ok j ->
    reads b j xs k -> reads b i (v :: xs) k.

Lemma int32_pred l : - 2 ^ 31 < l < 2 ^ 31 -> iarith int32 (l - 1) = Ok (l - 1).
Proof.
  intros H. unfold iarith, in_ityb. replace (ilow int32) with (- 2 ^ 31) by reflexivity.
  replace (ihigh int32) with (2 ^ 31) by reflexivity.
  replace (- 2 ^ 31 <=? l - 1) with true by lia. replace (l - 1 <? 2 ^ 31) with true by lia. reflexivity.
Qed.
Lemma lim_next_more {I V} (b : base I V) dbg i l j : 1 < l < 2 ^ 31 -> b_next b i = Ok j ->
  lim_next b dbg {| li_base := i; li_limit := l |} = Ok {| li_base := j; li_limit := l - 1 |}.
Proof.
  intros H E. unfold lim_next. cbn [li_limit li_base]. replace (0 <? l) with true by lia. rewrite andb_false_r.
  rewrite int32_pred by lia. cbn [bind]. replace (0 <? l - 1) with true by lia. now rewrite E.
Qed.
Lemma lim_next_last {I V} (b : base I V) dbg i l : l = 1 \/ (dbg = false /\ - 2 ^ 31 < l <= 0) ->
  lim_next b dbg {| li_base := i; li_limit := l |} = Ok {| li_base := b_null b; li_limit := l - 1 |}.
Proof.
  intros H. unfold lim_next. cbn [li_limit li_base].
  replace (dbg && negb (0 <? l)) with false.
  2: { destruct H as [->|[-> _]]; [now rewrite andb_false_r|reflexivity]. }
  rewrite int32_pred by lia. cbn [bind]. now replace (0 <? l - 1) with false by lia.
Qed.
Lemma walk_step {I V} (b : base I V) fuel first last v next : b_eq b first last = false ->
  b_get b first = Ok v -> b_next b first = Ok next ->
  walk b (S fuel) first last = do vs <- walk b fuel next last; Ok (v :: vs).
Proof. intros E G N. cbn [walk]. rewrite E, G. cbn [bind]. now rewrite N. Qed.
Lemma walk_end {I V} (b : base I V) fuel first last : b_eq b first last = true -> walk b fuel first last = Ok [].
Proof. intros E. destruct fuel; cbn [walk]; now rewrite E. Qed.

(** A limited range gives exactly as many elements as the limit says, and moves the base iterator only
    between them: nothing is required of the increment of the base iterator at the last one. *)
Theorem C118_exact : forall (I V : Type) (b : base I V) dbg i xs j y fuel,
  b_eq b (b_null b) (b_null b) = true ->
  reads b i xs j -> b_eq b j (b_null b) = false -> b_get b j = Ok y ->
  Z.of_nat (S (length xs)) < 2 ^ 31 -> (S (length xs) <= fuel)%nat ->
  walk (limited b dbg) fuel (lim_begin i (Z.of_nat (S (length xs)))) (lim_end b) = Ok (xs ++ [y]).
Proof.
  intros I V b dbg i xs j y fuel N R. revert fuel. induction R as [i|i v j xs k E G X R IH]; intros fuel Ej Gj L F.
  - destruct fuel as [|fuel]; [cbn in F; lia|]. cbn [length] in *.
    erewrite walk_step; [|exact Ej|exact Gj|apply lim_next_last; lia].
    rewrite walk_end by exact N. reflexivity.
  - destruct fuel as [|fuel]; [cbn in F; lia|]. cbn [length] in *.
    erewrite walk_step; [|exact E|exact G|apply lim_next_more; [lia|exact X]].
    replace (Z.of_nat (S (S (length xs))) - 1) with (Z.of_nat (S (length xs))) by lia.
    unfold lim_begin in IH. rewrite (IH fuel) by (auto; lia). reflexivity.
Qed.
(** If the base iterator comes to the end, the range ends there or at the limit, whichever is first. *)
Theorem C118_ends : forall (I V : Type) (b : base I V) dbg i xs j n fuel,
  b_eq b (b_null b) (b_null b) = true ->
  reads b i xs j -> b_eq b j (b_null b) = true -> 0 < n < 2 ^ 31 -> (length xs <= fuel)%nat ->
  walk (limited b dbg) fuel (lim_begin i n) (lim_end b) = Ok (firstn (Z.to_nat n) xs).
Proof.
  intros I V b dbg i xs j n fuel N R. revert fuel n. induction R as [i|i v j xs k E G X R IH]; intros fuel n Ej L F.
  - rewrite walk_end by exact Ej. now rewrite firstn_nil.
  - destruct fuel as [|fuel]; [cbn in F; lia|]. cbn [length] in *.
    replace (Z.to_nat n) with (S (Z.to_nat (n - 1))) by lia. cbn [firstn].
    assert (C : n = 1 \/ 1 < n) by lia. destruct C as [->|C].
    + erewrite walk_step; [|exact E|exact G|apply lim_next_last; lia].
      rewrite walk_end by exact N. reflexivity.
    + erewrite walk_step; [|exact E|exact G|apply lim_next_more; [lia|exact X]].
      unfold lim_begin in IH. rewrite (IH fuel (n - 1)) by (auto; lia). reflexivity.
Qed.
(** Finding: the limit zero (or a negative one) does not give an empty range. With assertions the range
    cannot be traversed, without them it has one element. *)
Theorem C118_zero_refuted : forall (I V : Type) (b : base I V) i v n fuel,
  b_eq b (b_null b) (b_null b) = true -> b_eq b i (b_null b) = false -> b_get b i = Ok v ->
  - 2 ^ 31 < n <= 0 -> (0 < fuel)%nat ->
  walk (limited b true) fuel (lim_begin i n) (lim_end b) = AssertFail /\
  walk (limited b false) fuel (lim_begin i n) (lim_end b) = Ok [v].
Proof.
  intros I V b i v n [|fuel] N E G L F; [lia|]. split.
  - cbn [walk]. cbn [limited b_eq b_get lim_begin lim_end li_base]. rewrite E, G. cbn [bind b_next limited].
    unfold lim_next. cbn [li_limit lim_begin]. now replace (0 <? n) with false by lia.
  - erewrite walk_step; [|exact E|exact G|apply lim_next_last; auto]. now rewrite walk_end by exact N.
Qed.

(** Pointers: *)
Lemma reads_pointer {V} (a : list V) p n : (p + n <= length a)%nat ->
  reads (pointer a) (Some (Z.of_nat p)) (firstn n (skipn p a)) (Some (Z.of_nat (p + n))).
Proof.
  revert p. induction n as [|n IH]; intros p H.
  - rewrite Nat.add_0_r. constructor.
  - destruct (nth_error a p) as [v|] eqn:E; [|apply nth_error_None in E; lia].
    assert (K : skipn p a = v :: skipn (S p) a).
    { clear - E. revert p E. induction a as [|w a IH]; intros [|p] E; cbn in *; try discriminate; [congruence|]. now apply IH. }
    rewrite K. cbn [firstn]. apply reads_cons with (j := Some (Z.of_nat (S p))).
    + reflexivity.
    + cbn. replace (Z.of_nat p <? 0) with false by lia. now rewrite Nat2Z.id, E.
    + cbn. replace (0 <=? Z.of_nat p + 1) with true by lia.
      replace (Z.of_nat p + 1 <=? Z.of_nat (length a)) with true by lia. cbn. do 2 f_equal. lia.
    + replace (p + S n)%nat with (S p + n)%nat by lia. apply IH. lia.
Qed.
Theorem C118_pointer : forall (V : Type) (a : list V) dbg p n fuel,
  (p + n <= length a)%nat -> (0 < n)%nat -> Z.of_nat n < 2 ^ 31 -> (n <= fuel)%nat ->
  walk (limited (pointer a) dbg) fuel (lim_begin (Some (Z.of_nat p)) (Z.of_nat n)) (lim_end (pointer a))
  = Ok (firstn n (skipn p a)).
Proof.
  intros V a dbg p [|n] fuel H Hn L F; [lia|].
  destruct (nth_error a (p + n)) as [v|] eqn:E; [|apply nth_error_None in E; lia].
  assert (R := reads_pointer a p n ltac:(lia)).
  assert (Hl : length (firstn n (skipn p a)) = n) by (rewrite firstn_length, skipn_length; lia).
  assert (X := C118_exact _ _ (pointer a) dbg _ _ _ v fuel eq_refl R eq_refl).
  rewrite Hl in X. rewrite X; auto.
  - f_equal. clear - E. revert p a E. induction n as [|n IH]; intros p a E.
    + rewrite Nat.add_0_r in E. revert a E. induction p as [|p IHp]; intros [|w a] E; try discriminate; cbn in E |- *; [congruence|now apply IHp].
    + replace (p + S n)%nat with (S p + n)%nat in E by lia.
      destruct (skipn p a) as [|w r] eqn:K.
      * exfalso. assert (nth_error a (S p + n) <> None) as A by congruence. apply nth_error_Some in A.
        assert (length (skipn p a) = 0%nat) by now rewrite K. rewrite skipn_length in H. lia.
      * assert (r = skipn (S p) a) as ->.
        { clear - K. revert a K. induction p as [|p IH]; intros [|x a] K; cbn in K |- *; try discriminate; [now injection K|].
          now apply IH. }
        cbn [firstn app]. f_equal. now apply IH.
  - cbn [pointer b_get p_get]. clear - E. replace (Z.of_nat (p + n) <? 0) with false by (symmetry; apply Z.ltb_ge, Zle_0_nat). now rewrite Nat2Z.id, E.
Qed.
(** More elements than the array has are undefined behaviour: the limit is no bound check. *)
Theorem C118_pointer_past : forall (V : Type) (a : list V) dbg p n fuel,
  (p <= length a)%nat -> (length a < p + n)%nat -> Z.of_nat n < 2 ^ 31 -> (n <= fuel)%nat ->
  walk (limited (pointer a) dbg) fuel (lim_begin (Some (Z.of_nat p)) (Z.of_nat n)) (lim_end (pointer a)) = UB.
Proof.
  intros V a dbg p n fuel Hp H L. revert p fuel Hp H. induction n as [|n IH]; intros p fuel Hp H F; [lia|].
  destruct fuel as [|fuel]; [lia|]. destruct (nth_error a p) as [v|] eqn:E.
  - assert (p < length a)%nat by (apply nth_error_Some; congruence).
    erewrite walk_step; [|reflexivity| |].
    2: { cbn. replace (Z.of_nat p <? 0) with false by lia. now rewrite Nat2Z.id, E. }
    2: { apply lim_next_more; [lia|]. cbn. replace (0 <=? Z.of_nat p + 1) with true by lia.
         now replace (Z.of_nat p + 1 <=? Z.of_nat (length a)) with true by lia. }
    replace (Z.of_nat p + 1) with (Z.of_nat (S p)) by lia. replace (Z.of_nat (S n) - 1) with (Z.of_nat n) by lia.
    unfold lim_begin in IH. now rewrite IH by lia.
  - cbn. replace (Z.of_nat p <? 0) with false by lia. now rewrite Nat2Z.id, E.
Qed.
(** Outside of the array: the end cannot be read, and moving out of the array is undefined, whatever the limit. *)
Theorem C118_outside : forall (V : Type) (a : list V) dbg p n k,
  let b := limited (pointer a) dbg in
  b_get b (lim_end (pointer a)) = UB /\
  b_next (limited (pointer a) true) (lim_end (pointer a)) = AssertFail /\
  ((p <= length a)%nat -> k < - Z.of_nat p \/ Z.of_nat (length a) - Z.of_nat p < k ->
    b_add b (lim_begin (Some (Z.of_nat p)) n) k = UB) /\
  b_prev b (lim_begin (Some 0) n) = UB.
Proof.
  intros V a dbg p n k b. split; [reflexivity|]. split; [reflexivity|]. split; [|reflexivity]. intros L K. cbn.
  destruct (Z.leb_spec 0 (Z.of_nat p + k)), (Z.leb_spec (Z.of_nat p + k) (Z.of_nat (length a))); try reflexivity. lia.
Qed.
Print Assumptions C118_outside.
(** Finding: addition moves the base iterator and leaves the limit, so a part of the range skipped by + is
    made up for at the other end: elements outside of the range are delivered. *)
Theorem C118_add_refuted : forall (V : Type) (a : list V) dbg p n k fuel,
  (p + k + n <= length a)%nat -> (0 < k < n)%nat -> Z.of_nat n < 2 ^ 31 -> (n <= fuel)%nat ->
  let b := limited (pointer a) dbg in
  (do i <- b_add b (lim_begin (Some (Z.of_nat p)) (Z.of_nat n)) (Z.of_nat k); walk b fuel i (lim_end (pointer a)))
    = Ok (firstn n (skipn (p + k) a)) /\
  firstn n (skipn (p + k) a) <> skipn k (firstn n (skipn p a)).
Proof.
  intros V a dbg p n k fuel H Hk L F b. split.
  - subst b. cbn [limited b_add lim_begin li_base li_limit pointer p_add].
    replace (0 <=? Z.of_nat p + Z.of_nat k) with true by lia.
    replace (Z.of_nat p + Z.of_nat k <=? Z.of_nat (length a)) with true by lia. cbn [andb bind].
    replace (Z.of_nat p + Z.of_nat k) with (Z.of_nat (p + k)) by lia. apply C118_pointer; lia.
  - intros E. apply (f_equal (@length V)) in E.
    rewrite firstn_length, !skipn_length, firstn_length, skipn_length in E. lia.
Qed.
(** Finding: decrement does not undo increment. *)
Theorem C118_back_refuted : forall (V : Type) (a : list V) dbg p n fuel,
  (p + n <= length a)%nat -> (1 < n)%nat -> Z.of_nat n < 2 ^ 31 -> (n <= fuel)%nat ->
  let b := limited (pointer a) dbg in
  (do i <- b_next b (lim_begin (Some (Z.of_nat p)) (Z.of_nat n)); do j <- b_prev b i; walk b fuel j (lim_end (pointer a)))
    = Ok (firstn (n - 1) (skipn p a)).
Proof.
  intros V a dbg p n fuel H Hn L F b. subst b. cbn [limited b_next b_prev]. unfold lim_begin at 1.
  rewrite lim_next_more with (j := Some (Z.of_nat p + 1)); [|lia|].
  2: { cbn. replace (0 <=? Z.of_nat p + 1) with true by lia. now replace (Z.of_nat p + 1 <=? Z.of_nat (length a)) with true by lia. }
  cbn [bind li_base li_limit pointer b_prev p_add].
  replace (0 <=? Z.of_nat p + 1 + -1) with true by lia.
  replace (Z.of_nat p + 1 + -1 <=? Z.of_nat (length a)) with true by lia. cbn [andb bind].
  replace (Z.of_nat p + 1 + -1) with (Z.of_nat p) by lia. replace (Z.of_nat n - 1) with (Z.of_nat (n - 1)) by lia.
  apply C118_pointer; lia.
Qed.
(** Linked lists: the first elements, all if there are fewer. *)
Theorem C118_list : forall (V : Type) (h : heap (V := V)) first cells dbg n fuel,
  chain h first cells None -> 0 < n < 2 ^ 31 -> (length cells <= fuel)%nat ->
  walk (limited (linked h) dbg) fuel (lim_begin first n) (lim_end (linked h)) = Ok (firstn (Z.to_nat n) (map snd cells)).
Proof.
  intros V h first cells dbg n fuel C L F.
  apply C118_ends with (j := None); auto; [|now rewrite map_length].
  clear - C. revert first C. induction cells as [|(c, v) cells IH]; intros first C.
  - cbn in C. subst. constructor.
  - destruct C as (-> & d & Hd & <- & C). cbn [map snd]. apply reads_cons with (j := d_next d); auto.
    + cbn. now rewrite Hd.
    + cbn. now rewrite Hd.
Qed.
(** A transformed range is the image of the range: the same length and order, and where the traversal
    of the base fails, that of the transformed range fails in the same way. *)
Theorem C118_transform : forall (I V W : Type) (b : base I V) (f : V -> W) fuel first last,
  walk (transformed b f) fuel first last = do vs <- walk b fuel first last; Ok (map f vs).
Proof.
  intros I V W b f fuel. induction fuel as [|fuel IH]; intros first last; cbn [walk transformed b_eq b_get b_next].
  - now destruct (b_eq b first last).
  - destruct (b_eq b first last); [reflexivity|].
    destruct (b_get b first) as [v| | | |]; cbn [bind]; try reflexivity.
    destruct (b_next b first) as [j| | | |]; cbn [bind]; try reflexivity.
    cbn [transformed b_eq] in IH. fold (transformed b f). rewrite IH. now destruct (walk b fuel j last).
Qed.
(** Access by index through a transformed pointer. *)
Theorem C118_transform_index : forall (V W : Type) (a : list V) (f : V -> W) p k v,
  nth_error a (p + k) = Some v ->
  (do i <- b_add (transformed (pointer a) f) (Some (Z.of_nat p)) (Z.of_nat k); b_get (transformed (pointer a) f) i) = Ok (f v).
Proof.
  intros V W a f p k v E. assert (p + k < length a)%nat by (apply nth_error_Some; congruence).
  cbn. replace (0 <=? Z.of_nat p + Z.of_nat k) with true by lia.
  replace (Z.of_nat p + Z.of_nat k <=? Z.of_nat (length a)) with true by lia. cbn.
  replace (Z.of_nat p + Z.of_nat k <? 0) with false by lia.
  replace (Z.to_nat (Z.of_nat p + Z.of_nat k)) with (p + k)%nat by lia. now rewrite E.
Qed.
Example C118_case :
  let a := [10; 20; 30; 40; 50] in let b := limited (pointer a) true in
  walk b 9 (lim_begin (Some 1) 3) (lim_end (pointer a)) = Ok [20; 30; 40] /\
  walk b 9 (lim_begin (Some 1) 5) (lim_end (pointer a)) = UB /\
  walk b 9 (lim_begin (Some 1) 0) (lim_end (pointer a)) = AssertFail /\
  (do i <- b_add b (lim_begin (Some 1) 3) 1; walk b 9 i (lim_end (pointer a))) = Ok [30; 40; 50] /\
  walk (transformed b (fun x => x + 1)) 9 (lim_begin (Some 1) 3) (lim_end (pointer a)) = Ok [21; 31; 41].
Proof. vm_compute. auto. Qed.
Example C118_list_case :
  let h a := match a with
             | O => Some {| d_value := 10; d_next := Some 2%nat; d_prev := None |}
             | 2%nat => Some {| d_value := 20; d_next := None; d_prev := Some O |}
             | _ => None
             end in
  chain h (Some O) [(O, 10); (2%nat, 20)] None /\
  walk (limited (linked h) true) 5 (lim_begin (Some O) 7) (lim_end (linked h)) = Ok [10; 20].
Proof. split; [|reflexivity]. cbn. split; [reflexivity|]. eexists. repeat split. eexists. repeat split. Qed.
Print Assumptions C118_exact.
Print Assumptions C118_ends.
Print Assumptions C118_zero_refuted.
Print Assumptions C118_pointer.
Print Assumptions C118_pointer_past.
Print Assumptions C118_add_refuted.
Print Assumptions C118_back_refuted.
Print Assumptions C118_list.
Print Assumptions C118_transform.
Print Assumptions C118_transform_index.
