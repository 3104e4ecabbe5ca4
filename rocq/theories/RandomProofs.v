(** Proofs about splitmix64, xoroshiro128cplus and hashing (C06 - C08). *)
From Coq Require Import ZArith List Bool Lia.
From Verif Require Import Outcome NumericModel.
Import ListNotations.
Local Open Scope Z_scope.

Definition word64 (x : Z) : Prop := 0 <= x < 2 ^ 64.

Lemma word64_wrap x : word64 (wrap 64 x).
Proof. apply Z.mod_pos_bound. reflexivity. Qed.

Lemma wrap_word64 x : word64 x -> wrap 64 x = x.
Proof. intro. now apply Z.mod_small. Qed.

Lemma testbit_word64 x i : word64 x -> 64 <= i -> Z.testbit x i = false.
Proof.
  intros [H0 H1] Hi. destruct (Z.eq_dec x 0) as [->|]; [apply Z.bits_0|].
  apply Z.bits_above_log2; [lia|].
  apply Z.log2_lt_pow2 in H1; lia.
Qed.

Lemma word64_testbit x : 0 <= x ->
  (forall i, 64 <= i -> Z.testbit x i = false) -> word64 x.
Proof.
  intros H0 H. split; [assumption|].
  destruct (Z.eq_dec x 0) as [->|]; [reflexivity|].
  apply Z.log2_lt_pow2; [lia|].
  destruct (Z.lt_ge_cases (Z.log2 x) 64); [assumption|].
  pose proof (Z.bit_log2 x ltac:(lia)) as B. rewrite (H (Z.log2 x)) in B by assumption. discriminate.
Qed.

Lemma word64_lxor x y : word64 x -> word64 y -> word64 (Z.lxor x y).
Proof.
  intros Hx Hy. apply word64_testbit.
  - apply Z.lxor_nonneg. unfold word64 in *. lia.
  - intros. rewrite Z.lxor_spec, !testbit_word64 by assumption. reflexivity.
Qed.

Lemma word64_shiftr x k : word64 x -> 0 <= k -> word64 (Z.shiftr x k).
Proof.
  intros Hx Hk. apply word64_testbit.
  - apply Z.shiftr_nonneg. unfold word64 in *. lia.
  - intros. rewrite Z.shiftr_spec by lia. apply testbit_word64; [assumption|lia].
Qed.

Lemma shiftr_word64_0 x k : word64 x -> 64 <= k -> Z.shiftr x k = 0.
Proof.
  intros Hx Hk. rewrite Z.shiftr_div_pow2 by lia. apply Z.div_small.
  unfold word64 in *. split; [lia|].
  apply Z.lt_le_trans with (2 ^ 64); [lia|]. apply Z.pow_le_mono_r; lia.
Qed.

(** [x ^ (x >> k)] is inverted by [y ^ (y >> k) ^ (y >> 2k)] when 3k >= 64. *)
Definition unshift (k y : Z) : Z :=
  Z.lxor y (Z.lxor (Z.shiftr y k) (Z.shiftr y (2 * k))).

Lemma lxor3 a b c : Z.lxor (Z.lxor a (Z.lxor b c)) (Z.lxor b (Z.lxor c 0)) = a.
Proof.
  rewrite Z.lxor_0_r. rewrite Z.lxor_assoc.
  rewrite Z.lxor_nilpotent. apply Z.lxor_0_r.
Qed.

Lemma unshift_l k x : word64 x -> 22 <= k ->
  unshift k (Z.lxor x (Z.shiftr x k)) = x.
Proof.
  intros Hx Hk. unfold unshift. rewrite !Z.shiftr_lxor, !Z.shiftr_shiftr by lia.
  rewrite (shiftr_word64_0 x (k + 2 * k)) by (assumption || lia).
  rewrite Z.lxor_0_r.
  replace (k + k) with (2 * k) by lia.
  rewrite Z.lxor_assoc.
  rewrite <- (Z.lxor_assoc (Z.shiftr x k) (Z.lxor _ _)).
  rewrite <- (Z.lxor_assoc (Z.shiftr x k) (Z.shiftr x k)).
  rewrite Z.lxor_nilpotent, Z.lxor_0_l, Z.lxor_nilpotent. apply Z.lxor_0_r.
Qed.

Lemma unshift_r k y : word64 y -> 22 <= k ->
  Z.lxor (unshift k y) (Z.shiftr (unshift k y) k) = y.
Proof.
  intros Hx Hk. unfold unshift. rewrite !Z.shiftr_lxor, !Z.shiftr_shiftr by lia.
  rewrite (shiftr_word64_0 y (2 * k + k)) by (assumption || lia).
  replace (k + k) with (2 * k) by lia. apply lxor3.
Qed.

(** The step as a chain of xor-shifts and modular affine maps. *)
Definition mulw (c x : Z) : Z := wrap 64 (x * c).

Lemma mulw_inv c c' x : word64 x -> wrap 64 (c * c') = 1 ->
  mulw c' (mulw c x) = x.
Proof.
  intros Hx H. unfold mulw, wrap in *. rewrite Zmult_mod_idemp_l.
  rewrite <- Z.mul_assoc. rewrite <- Zmult_mod_idemp_r, H, Z.mul_1_r.
  now apply Z.mod_small.
Qed.

Definition splitmix_prev (y : Z) : Z :=
  let y := unshift 31 y in
  let y := mulw 3573116690164977347 y in
  let y := unshift 27 y in
  let y := mulw 10871156337175269513 y in
  let y := unshift 30 y in
  wrap 64 (y - 0x9e3779b97f4a7c15).

Lemma word64_unshift k y : word64 y -> 0 <= k -> word64 (unshift k y).
Proof.
  intros. unfold unshift.
  repeat apply word64_lxor; try assumption; apply word64_shiftr; (assumption || lia).
Qed.

Lemma wrap_add_sub x c : word64 x -> wrap 64 (wrap 64 (x + c) - c) = x.
Proof.
  intro. unfold wrap. rewrite Zminus_mod_idemp_l. rewrite Z.add_simpl_r.
  now apply Z.mod_small.
Qed.

Lemma wrap_sub_add x c : word64 x -> wrap 64 (wrap 64 (x - c) + c) = x.
Proof.
  intro. unfold wrap. rewrite Zplus_mod_idemp_l. rewrite Z.sub_add.
  now apply Z.mod_small.
Qed.

Lemma splitmix_next_word x : word64 (splitmix_next x).
Proof.
  unfold splitmix_next. apply word64_lxor; [|apply word64_shiftr; [|lia]]; apply word64_wrap.
Qed.

Lemma splitmix_prev_word x : word64 (splitmix_prev x).
Proof. apply word64_wrap. Qed.

Lemma splitmix_prev_next x : word64 x -> splitmix_prev (splitmix_next x) = x.
Proof.
  intro Hx. unfold splitmix_prev, splitmix_next. cbv zeta.
  rewrite unshift_l by (try apply word64_wrap; lia).
  fold (mulw 0x94d049bb133111eb (Z.lxor (wrap 64 (Z.lxor (wrap 64 (x + 0x9e3779b97f4a7c15)) (Z.shiftr (wrap 64 (x + 0x9e3779b97f4a7c15)) 30) * 0xbf58476d1ce4e5b9)) (Z.shiftr (wrap 64 (Z.lxor (wrap 64 (x + 0x9e3779b97f4a7c15)) (Z.shiftr (wrap 64 (x + 0x9e3779b97f4a7c15)) 30) * 0xbf58476d1ce4e5b9)) 27))).
  rewrite mulw_inv; [|apply word64_lxor; [|apply word64_shiftr; [|lia]]; apply word64_wrap|reflexivity].
  rewrite unshift_l by (try apply word64_wrap; lia).
  fold (mulw 0xbf58476d1ce4e5b9 (Z.lxor (wrap 64 (x + 0x9e3779b97f4a7c15)) (Z.shiftr (wrap 64 (x + 0x9e3779b97f4a7c15)) 30))).
  rewrite mulw_inv; [|apply word64_lxor; [|apply word64_shiftr; [|lia]]; apply word64_wrap|reflexivity].
  rewrite unshift_l by (try apply word64_wrap; lia).
  now apply wrap_add_sub.
Qed.

Lemma splitmix_next_prev y : word64 y -> splitmix_next (splitmix_prev y) = y.
Proof.
  intro Hy. unfold splitmix_prev, splitmix_next. cbv zeta.
  assert (H31 := word64_unshift 31 y Hy ltac:(lia)).
  set (a := unshift 31 y) in *.
  set (b := mulw 3573116690164977347 a).
  assert (Hb : word64 b) by apply word64_wrap.
  assert (H27 := word64_unshift 27 b Hb ltac:(lia)).
  set (c := mulw 10871156337175269513 (unshift 27 b)).
  assert (Hc : word64 c) by apply word64_wrap.
  rewrite wrap_sub_add by (apply word64_unshift; (assumption || lia)).
  rewrite unshift_r by (assumption || lia).
  assert (E1 : wrap 64 (c * 0xbf58476d1ce4e5b9) = unshift 27 b).
  { apply (mulw_inv 10871156337175269513 0xbf58476d1ce4e5b9); [assumption|reflexivity]. }
  rewrite E1. rewrite unshift_r by (assumption || lia).
  assert (E2 : wrap 64 (b * 0x94d049bb133111eb) = a).
  { apply (mulw_inv 3573116690164977347 0x94d049bb133111eb); [assumption|reflexivity]. }
  rewrite E2. apply unshift_r; (assumption || lia).
Qed.

Lemma splitmix_next_inj x y : word64 x -> word64 y ->
  splitmix_next x = splitmix_next y -> x = y.
Proof.
  intros Hx Hy E. rewrite <- (splitmix_prev_next x), <- (splitmix_prev_next y) by assumption.
  now f_equal.
Qed.

Lemma splitmix_run_word n : forall x, word64 x -> word64 (splitmix_run n x).
Proof.
  induction n; simpl; intros; [assumption|]. apply IHn, splitmix_next_word.
Qed.

Lemma splitmix_run_inj n : forall x y, word64 x -> word64 y ->
  splitmix_run n x = splitmix_run n y -> x = y.
Proof.
  induction n; simpl; intros x y Hx Hy E; [assumption|].
  apply splitmix_next_inj; [assumption|assumption|].
  apply IHn; [apply splitmix_next_word|apply splitmix_next_word|assumption].
Qed.

(** ** xoroshiro *)

(** Rotation left. *)
Definition rotl (k x : Z) : Z :=
  Z.lxor (wrap 64 (Z.shiftl x k)) (Z.shiftr x (64 - k)).

Lemma rotl_word k x : word64 x -> 0 <= k <= 64 -> word64 (rotl k x).
Proof.
  intros. apply word64_lxor; [apply word64_wrap|apply word64_shiftr; (assumption || lia)].
Qed.

Lemma wrap_testbit x i : 0 <= i < 64 -> Z.testbit (wrap 64 x) i = Z.testbit x i.
Proof. intro. unfold wrap. now apply Z.mod_pow2_bits_low. Qed.

Lemma rotl_testbit k x i : word64 x -> 0 < k < 64 -> 0 <= i < 64 ->
  Z.testbit (rotl k x) i = Z.testbit x (if i <? k then i - k + 64 else i - k).
Proof.
  intros Hx Hk Hi. unfold rotl.
  rewrite Z.lxor_spec, wrap_testbit, Z.shiftl_spec, Z.shiftr_spec by lia.
  destruct (Z.ltb_spec i k).
  - rewrite Z.testbit_neg_r by lia. rewrite xorb_false_l. f_equal. lia.
  - rewrite (testbit_word64 x (i + (64 - k))) by (assumption || lia). apply xorb_false_r.
Qed.

Lemma word64_eq x y : word64 x -> word64 y ->
  (forall i, 0 <= i < 64 -> Z.testbit x i = Z.testbit y i) -> x = y.
Proof.
  intros Hx Hy H. apply Z.bits_inj'. intros i Hi.
  destruct (Z.lt_ge_cases i 64); [apply H; lia|].
  now rewrite !testbit_word64.
Qed.

Lemma rotl_rotl k x : word64 x -> 0 < k < 64 -> rotl (64 - k) (rotl k x) = x.
Proof.
  intros Hx Hk. apply word64_eq; [repeat apply rotl_word; (assumption || lia)|assumption|].
  intros i Hi. rewrite rotl_testbit by (try apply rotl_word; (assumption || lia)).
  destruct (Z.ltb_spec i (64 - k)).
  - rewrite rotl_testbit by (assumption || lia).
    destruct (Z.ltb_spec (i - (64 - k) + 64) k); [lia|f_equal; lia].
  - rewrite rotl_testbit by (assumption || lia).
    destruct (Z.ltb_spec (i - (64 - k)) k); [f_equal; lia|lia].
Qed.

Definition word64p (st : Z * Z) : Prop := word64 (fst st) /\ word64 (snd st).

Lemma xoroshiro_next_eq x y :
  xoroshiro_next (x, y) =
  (let y1 := Z.lxor y x in
   (Z.lxor (Z.lxor (rotl 55 x) y1) (wrap 64 (Z.shiftl y1 14)), rotl 36 y1)).
Proof. reflexivity. Qed.

Local Opaque rotl.

(** Explicit inverse of the state transition. *)
Definition xoroshiro_prev (st : Z * Z) : Z * Z :=
  let (x', y') := st in
  let y1 := rotl 28 y' in
  let x := rotl 9 (Z.lxor (Z.lxor x' y1) (wrap 64 (Z.shiftl y1 14))) in
  (x, Z.lxor y1 x).

Lemma xoroshiro_next_word st : word64p st -> word64p (xoroshiro_next st).
Proof.
  destruct st as [x y]. intros [Hx Hy]. simpl in *. rewrite xoroshiro_next_eq. cbv zeta.
  assert (word64 (Z.lxor y x)) by now apply word64_lxor.
  split; simpl.
  - repeat apply word64_lxor; try assumption; [apply rotl_word; (assumption || lia)|apply word64_wrap].
  - apply rotl_word; (assumption || lia).
Qed.

Lemma xoroshiro_prev_word st : word64p st -> word64p (xoroshiro_prev st).
Proof.
  destruct st as [x y]. intros [Hx Hy]. simpl in *.
  assert (word64 (rotl 28 y)) by (apply rotl_word; (assumption || lia)).
  assert (word64 (rotl 9 (Z.lxor (Z.lxor x (rotl 28 y)) (wrap 64 (Z.shiftl (rotl 28 y) 14))))).
  { apply rotl_word; [|lia]. repeat apply word64_lxor; try assumption. apply word64_wrap. }
  split; simpl; [assumption|now apply word64_lxor].
Qed.

Lemma lxor_cancel3 a b c : Z.lxor (Z.lxor (Z.lxor (Z.lxor a b) c) b) c = a.
Proof.
  apply Z.bits_inj'. intros i Hi. rewrite !Z.lxor_spec.
  destruct (Z.testbit a i), (Z.testbit b i), (Z.testbit c i); reflexivity.
Qed.

Lemma xoroshiro_prev_next st : word64p st -> xoroshiro_prev (xoroshiro_next st) = st.
Proof.
  destruct st as [x y]. intros [Hx Hy]. simpl fst in *. simpl snd in *.
  rewrite xoroshiro_next_eq. cbv zeta.
  assert (H1 : word64 (Z.lxor y x)) by now apply word64_lxor.
  unfold xoroshiro_prev.
  change 28 with (64 - 36). rewrite rotl_rotl by (assumption || lia).
  rewrite lxor_cancel3. change 9 with (64 - 55). rewrite rotl_rotl by (assumption || lia).
  f_equal. rewrite Z.lxor_assoc, Z.lxor_nilpotent. apply Z.lxor_0_r.
Qed.

Lemma xoroshiro_next_prev st : word64p st -> xoroshiro_next (xoroshiro_prev st) = st.
Proof.
  destruct st as [x y]. intros [Hx Hy]. simpl fst in *. simpl snd in *.
  unfold xoroshiro_prev. rewrite xoroshiro_next_eq. cbv zeta.
  set (y1 := rotl 28 y). assert (H1 : word64 y1) by (apply rotl_word; (assumption || lia)).
  set (u := Z.lxor (Z.lxor x y1) (wrap 64 (Z.shiftl y1 14))).
  assert (Hu : word64 u) by (repeat apply word64_lxor; try assumption; apply word64_wrap).
  rewrite (Z.lxor_assoc y1 (rotl 9 u)), Z.lxor_nilpotent, Z.lxor_0_r.
  assert (E1 : rotl 55 (rotl 9 u) = u) by (apply (rotl_rotl 9); (assumption || lia)).
  assert (E2 : rotl 36 y1 = y) by (apply (rotl_rotl 28); (assumption || lia)).
  rewrite E1, E2. f_equal. apply lxor_cancel3.
Qed.

Lemma xoroshiro_next_zero st : word64p st -> xoroshiro_next st = (0, 0) -> st = (0, 0).
Proof.
  intros H E. rewrite <- (xoroshiro_prev_next st H), E. reflexivity.
Qed.

Lemma xoroshiro_run_nonzero n : forall st, word64p st -> st <> (0, 0) ->
  xoroshiro_run n st <> (0, 0).
Proof.
  induction n; simpl; intros st H Hn; [assumption|].
  apply IHn; [now apply xoroshiro_next_word|].
  intro E. apply Hn. now apply xoroshiro_next_zero.
Qed.

Lemma xoroshiro_run_inj n : forall s t, word64p s -> word64p t ->
  xoroshiro_run n s = xoroshiro_run n t -> s = t.
Proof.
  induction n; simpl; intros s t Hs Ht E; [assumption|].
  apply IHn in E; [|now apply xoroshiro_next_word|now apply xoroshiro_next_word].
  rewrite <- (xoroshiro_prev_next s), <- (xoroshiro_prev_next t) by assumption.
  now f_equal.
Qed.

(** ** hashing *)

Definition is_bytes (n : nat) (bs : list Z) : Prop :=
  length bs = n /\ Forall (fun b => 0 <= b < 256) bs.

Lemma bytes_value_bound bs : Forall (fun b => 0 <= b < 256) bs ->
  0 <= bytes_value bs < 256 ^ Z.of_nat (length bs).
Proof.
  induction 1 as [|b bs Hb _ IH]; cbn [bytes_value]; [simpl; lia|].
  replace (Z.of_nat (length (b :: bs))) with (1 + Z.of_nat (length bs)) by (simpl length; lia).
  rewrite Z.pow_add_r by lia. change (256 ^ 1) with 256. lia.
Qed.

Lemma bytes_value_inj : forall n xs ys, is_bytes n xs -> is_bytes n ys ->
  bytes_value xs = bytes_value ys -> xs = ys.
Proof.
  induction n; intros xs ys [Lx Fx] [Ly Fy] E.
  - destruct xs, ys; simpl in *; congruence || lia.
  - destruct xs as [|x xs], ys as [|y ys]; cbn [length bytes_value] in *; try lia.
    inversion_clear Fx; inversion_clear Fy.
    assert (x = y /\ bytes_value xs = bytes_value ys) as [-> E2] by (clear - H H1 E; lia).
    f_equal. apply IHn; try assumption; split; (assumption || lia).
Qed.

Lemma repeat_bytes n k bs : is_bytes n bs -> is_bytes (k + n) (repeat 0 k ++ bs).
Proof.
  intros [L F]. split; [rewrite app_length, repeat_length; lia|].
  apply Forall_app. split; [|assumption]. apply Forall_forall. intros z Hz.
  apply repeat_spec in Hz. lia.
Qed.

Lemma wrap_add_inj s x y : word64 x -> word64 y ->
  wrap 64 (x + s) = wrap 64 (y + s) -> x = y.
Proof.
  intros Hx Hy E. rewrite <- (wrap_add_sub x s), <- (wrap_add_sub y s) by assumption.
  now rewrite E.
Qed.

Lemma hash_compute_inj s x y : word64 x -> word64 y ->
  hash_compute s x = hash_compute s y -> x = y.
Proof.
  intros Hx Hy E. apply splitmix_next_inj in E; try apply word64_wrap.
  now apply wrap_add_inj with s.
Qed.

Lemma hash_value_word s bs : word64 (hash_value_bytes s bs).
Proof. apply splitmix_next_word. Qed.

Lemma hash_value_inj s n xs ys : (n <= 8)%nat -> is_bytes n xs -> is_bytes n ys ->
  hash_value_bytes s xs = hash_value_bytes s ys -> xs = ys.
Proof.
  intros Hn Hx Hy E. unfold hash_value_bytes in E.
  pose proof (repeat_bytes n (8 - length xs) xs Hx) as Rx.
  pose proof (repeat_bytes n (8 - length ys) ys Hy) as Ry.
  replace (8 - length xs + n)%nat with 8%nat in Rx by (destruct Hx; lia).
  replace (8 - length ys + n)%nat with 8%nat in Ry by (destruct Hy; lia).
  assert (B : forall l, is_bytes 8 l -> word64 (bytes_value l)).
  { intros l [L F]. pose proof (bytes_value_bound l F). rewrite L in H. exact H. }
  apply hash_compute_inj in E; [|now apply B|now apply B].
  apply (bytes_value_inj 8) in E; try assumption.
  replace (length ys) with (length xs) in E by (destruct Hx, Hy; lia).
  now apply app_inv_head in E.
Qed.

Lemma lxor_inj a x y : Z.lxor a x = Z.lxor a y -> x = y.
Proof.
  intro E. apply (f_equal (Z.lxor a)) in E.
  rewrite <- !Z.lxor_assoc, Z.lxor_nilpotent, !Z.lxor_0_l in E. exact E.
Qed.

Lemma hash_combine_inj s x y : word64 x -> word64 y ->
  hash_combine s x = hash_combine s y -> x = y.
Proof.
  intros Hx Hy E. apply lxor_inj in E.
  apply (wrap_add_inj (wrap 64 (Z.shiftl s 6) + Z.shiftr s 2 + 0x9e3779b9)); try assumption.
  rewrite (Z.add_comm x), (Z.add_comm y). exact E.
Qed.

Lemma hash_fold_last_inj s hs x y : word64 x -> word64 y ->
  fold_left hash_combine (hs ++ [x]) s = fold_left hash_combine (hs ++ [y]) s -> x = y.
Proof.
  intros Hx Hy. rewrite !fold_left_app. simpl. now apply hash_combine_inj.
Qed.
