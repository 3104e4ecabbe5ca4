(** Proofs about bit helpers, comparisons and literals (C09 - C12). *)
From Coq Require Import ZArith List Bool Lia QArith Qabs Lqa.
From Verif Require Import Outcome NumericModel.
Import ListNotations.
Local Open Scope Z_scope.

(** ** Bits *)
Section Bits.
  Variable w : Z.
  Hypothesis Hw : 0 < w.
  Notation word x := (0 <= x < 2 ^ w).

  Lemma word_high x i : word x -> w <= i -> Z.testbit x i = false.
  Proof.
    intros [H0 H1] Hi. destruct (Z.eq_dec x 0) as [->|]; [apply Z.bits_0|].
    apply Z.bits_above_log2; [lia|]. apply Z.log2_lt_pow2 in H1; lia.
  Qed.

  Lemma wnot_testbit x i : word x -> 0 <= i ->
    Z.testbit (wnot w x) i = (i <? w) && negb (Z.testbit x i).
  Proof.
    intros Hx Hi. unfold wnot.
    replace (2 ^ w - 1 - x) with (Z.ldiff (Z.ones w) x).
    - rewrite Z.ldiff_spec, Z.testbit_ones_nonneg by lia. reflexivity.
    - rewrite Z.ones_equiv. rewrite <- Z.sub_1_r.
      symmetry. apply Z.sub_nocarry_ldiff.
      apply Z.bits_inj'. intros k Hk. rewrite Z.ldiff_spec, Z.bits_0.
      rewrite Z.sub_1_r, <- Z.ones_equiv, Z.testbit_ones_nonneg by lia.
      destruct (Z.ltb_spec k w); [apply andb_false_r|].
      rewrite word_high by assumption. reflexivity.
  Qed.

  Lemma wnot_word x : word x -> word (wnot w x).
  Proof. unfold wnot. lia. Qed.

  Lemma land_word x y : word x -> word y -> word (Z.land x y).
  Proof.
    intros Hx Hy. split; [apply Z.land_nonneg; lia|].
    destruct (Z.eq_dec (Z.land x y) 0) as [->|N]; [lia|].
    assert (0 <= Z.land x y) by (apply Z.land_nonneg; lia).
    apply Z.log2_lt_pow2; [lia|].
    destruct (Z.lt_ge_cases (Z.log2 (Z.land x y)) w); [assumption|].
    pose proof (Z.bit_log2 (Z.land x y) ltac:(lia)) as B.
    rewrite Z.land_spec, (word_high x) in B by assumption. discriminate.
  Qed.

  Lemma lor_word x y : word x -> word y -> word (Z.lor x y).
  Proof.
    intros Hx Hy. assert (0 <= Z.lor x y) by (apply Z.lor_nonneg; lia).
    split; [assumption|].
    destruct (Z.eq_dec (Z.lor x y) 0) as [->|N]; [lia|].
    apply Z.log2_lt_pow2; [lia|].
    destruct (Z.lt_ge_cases (Z.log2 (Z.lor x y)) w); [assumption|].
    pose proof (Z.bit_log2 (Z.lor x y) ltac:(lia)) as B.
    rewrite Z.lor_spec, (word_high x), (word_high y) in B by assumption. discriminate.
  Qed.

  Lemma clear_bits_spec x b i : word x -> word b -> 0 <= i ->
    Z.testbit (clear_bits w x b) i = Z.testbit x i && negb (Z.testbit b i).
  Proof.
    intros Hx Hb Hi. unfold clear_bits. rewrite Z.land_spec, wnot_testbit by assumption.
    destruct (Z.ltb_spec i w); [reflexivity|].
    rewrite (word_high x) by assumption. reflexivity.
  Qed.

  Lemma set_bits_spec x mask bits i : word x -> word mask -> word bits -> 0 <= i ->
    Z.testbit (set_bits w x mask bits) i =
    if Z.testbit mask i then Z.testbit bits i else Z.testbit x i.
  Proof.
    intros Hx Hm Hb Hi. unfold set_bits.
    rewrite Z.lor_spec, clear_bits_spec, Z.land_spec by assumption.
    destruct (Z.testbit x i), (Z.testbit mask i), (Z.testbit bits i); reflexivity.
  Qed.

  Lemma set_bits_word x mask bits : word x -> word mask -> word bits ->
    word (set_bits w x mask bits).
  Proof.
    intros. apply lor_word; apply land_word; try assumption. now apply wnot_word.
  Qed.

  Lemma has_bits_spec x b : 0 <= x -> 0 <= b ->
    has_bits x b = true <->
    (forall i, 0 <= i -> Z.testbit b i = true -> Z.testbit x i = true).
  Proof.
    intros Hx Hb. unfold has_bits. rewrite Z.eqb_eq. split; intro H.
    - intros i Hi Hbi. rewrite <- H, Z.land_spec in Hbi. now apply andb_true_iff in Hbi.
    - apply Z.bits_inj'. intros i Hi. rewrite Z.land_spec.
      destruct (Z.testbit b i) eqn:E; [now rewrite (H i Hi E)|apply andb_false_r].
  Qed.

  Lemma has_bit_spec x i : 0 <= i < w -> has_bit w x i = Ok (Z.testbit x i).
  Proof.
    intro Hi. unfold has_bit, assert_then.
    destruct (Z.leb_spec 0 i); [|lia]. destruct (Z.ltb_spec i w); [|lia].
    f_equal. change 1 with (Z.ones 1). rewrite Z.land_ones by lia.
    rewrite Z.testbit_odd. change (2 ^ 1) with 2. rewrite Zmod_odd.
    now destruct (Z.odd (Z.shiftr x i)).
  Qed.

  Lemma bit_spec i : 0 <= i < w ->
    exists b, bit w i = Ok b /\ word b /\
      forall j, 0 <= j -> Z.testbit b j = (j =? i).
  Proof.
    intro Hi. exists (2 ^ i). unfold bit, assert_then.
    destruct (Z.leb_spec 0 i); [|lia]. destruct (Z.ltb_spec i w); [|lia].
    split; [f_equal; now rewrite Z.shiftl_1_l|]. split.
    - split; [apply Z.pow_nonneg; lia|]. apply Z.pow_lt_mono_r; lia.
    - intros j Hj. rewrite Z.pow2_bits_eqb by lia. apply Z.eqb_sym.
  Qed.

  Lemma clear_bit_spec x i : word x -> 0 <= i < w ->
    exists y, clear_bit w x i = Ok y /\
      forall j, 0 <= j -> Z.testbit y j = if j =? i then false else Z.testbit x j.
  Proof.
    intros Hx Hi. destruct (bit_spec i Hi) as (b & E & Hb & S).
    exists (clear_bits w x b). unfold clear_bit. rewrite E. split; [reflexivity|].
    intros j Hj. rewrite clear_bits_spec, S by assumption.
    destruct (j =? i); [apply andb_false_r|apply andb_true_r].
  Qed.
End Bits.

(** ** Order laws *)

(** Strict weak order. *)
Record strict_weak {T} (less : T -> T -> bool) : Prop := {
  sw_irrefl : forall x, less x x = false;
  sw_trans : forall x y z, less x y = true -> less y z = true -> less x z = true;
  sw_incomp : forall x y z,
    less x y = false -> less y x = false -> less y z = false -> less z y = false ->
    less x z = false /\ less z x = false }.

Section Order.
  Variable T : Type.
  Variable less : T -> T -> bool.
  Hypothesis SW : strict_weak less.

  Lemma less_asym x y : less x y = true -> less y x = false.
  Proof.
    intro H. destruct (less y x) eqn:E; [|reflexivity].
    rewrite <- (sw_irrefl _ SW x). symmetry. eapply sw_trans; eassumption.
  Qed.

  Lemma min_spec l r :
    (cmp_min T less l r = l \/ cmp_min T less l r = r)
    /\ less l (cmp_min T less l r) = false /\ less r (cmp_min T less l r) = false
    /\ (less l r = false -> less r l = false -> cmp_min T less l r = l).
  Proof.
    unfold cmp_min. destruct (less r l) eqn:E.
    - repeat split; auto; [now apply less_asym|apply (sw_irrefl _ SW)|discriminate].
    - repeat split; auto. apply (sw_irrefl _ SW).
  Qed.

  Lemma max_spec l r :
    (cmp_max T less l r = l \/ cmp_max T less l r = r)
    /\ less (cmp_max T less l r) l = false /\ less (cmp_max T less l r) r = false
    /\ (less l r = false -> less r l = false -> cmp_max T less l r = l).
  Proof.
    unfold cmp_max. destruct (less l r) eqn:E.
    - repeat split; auto; [now apply less_asym|apply (sw_irrefl _ SW)|discriminate].
    - repeat split; auto. apply (sw_irrefl _ SW).
  Qed.

  Lemma compare3way_spec l r :
    (compare3way T less l r = -1 <-> less l r = true)
    /\ (compare3way T less l r = 1 <-> less r l = true)
    /\ (compare3way T less l r = 0 <-> less l r = false /\ less r l = false)
    /\ compare3way T less r l = - compare3way T less l r.
  Proof.
    unfold compare3way, is_greater.
    destruct (less l r) eqn:E1, (less r l) eqn:E2; simpl; try (repeat split; intros; auto; try easy; lia).
    rewrite (less_asym _ _ E1) in E2. discriminate.
  Qed.

  Lemma compare3way_trans x y z :
    compare3way T less x y <= 0 -> compare3way T less y z <= 0 ->
    compare3way T less x z <= 0.
  Proof.
    unfold compare3way, is_greater. intros H1 H2.
    destruct (less z x) eqn:E; [|destruct (less x z); simpl; lia].
    exfalso.
    destruct (less y x) eqn:Eyx.
    { rewrite (less_asym _ _ Eyx) in H1. simpl in H1. lia. }
    destruct (less z y) eqn:Ezy.
    { rewrite (less_asym _ _ Ezy) in H2. simpl in H2. lia. }
    destruct (less x y) eqn:Exy.
    - pose proof (sw_trans _ SW _ _ _ E Exy). congruence.
    - destruct (less y z) eqn:Eyz.
      + pose proof (sw_trans _ SW _ _ _ Eyz E). congruence.
      + pose proof (sw_incomp _ SW x y z Exy Eyx Eyz Ezy). intuition congruence.
  Qed.
End Order.

Lemma Zltb_strict_weak : strict_weak Z.ltb.
Proof. split; intros; lia. Qed.

Lemma sgn_spec x : sgn x = Z.sgn x.
Proof. unfold sgn, compare3way, is_greater. destruct x; reflexivity. Qed.

(** ** Absolute error comparison *)

Lemma ae_equal_iff eps l r : ae_equal eps l r = true <-> (- eps <= l - r <= eps)%Q.
Proof.
  unfold ae_equal. rewrite Qle_bool_iff. rewrite Qabs_Qle_condition. reflexivity.
Qed.

Lemma ae_less_iff eps l r : ae_less eps l r = true <-> (eps < r - l)%Q.
Proof.
  unfold ae_less. rewrite negb_true_iff. split; intro H.
  - apply Qnot_le_lt. intro L. apply Qle_bool_iff in L. congruence.
  - destruct (Qle_bool (r - l) eps) eqn:E; [|reflexivity].
    apply Qle_bool_iff in E. exfalso. lra.
Qed.

Lemma ae_trichotomy eps l r : (0 <= eps)%Q ->
  (ae_less eps l r = true /\ ae_equal eps l r = false /\ ae_greater eps l r = false)
  \/ (ae_less eps l r = false /\ ae_equal eps l r = true /\ ae_greater eps l r = false)
  \/ (ae_less eps l r = false /\ ae_equal eps l r = false /\ ae_greater eps l r = true).
Proof.
  intro He.
  pose proof (ae_less_iff eps l r) as A. pose proof (ae_less_iff eps r l) as B.
  pose proof (ae_equal_iff eps l r) as C. unfold ae_greater.
  destruct (ae_less eps l r), (ae_less eps r l), (ae_equal eps l r); auto; exfalso;
    try (pose proof (proj1 A eq_refl)); try (pose proof (proj1 B eq_refl));
    try (pose proof (proj1 C eq_refl)); try lra.
Qed.

Lemma ae_less_trans eps x y z : (0 <= eps)%Q ->
  ae_less eps x y = true -> ae_less eps y z = true -> ae_less eps x z = true.
Proof. intros He. rewrite !ae_less_iff. intros. lra. Qed.

Lemma ae_equal_refl eps x : (0 <= eps)%Q -> ae_equal eps x x = true.
Proof. intro. apply ae_equal_iff. lra. Qed.

Lemma ae_equal_sym eps x y : ae_equal eps x y = ae_equal eps y x.
Proof.
  apply eq_true_iff_eq. rewrite !ae_equal_iff. split; intro; lra.
Qed.

Lemma ae_translate eps x y t :
  ae_equal eps (x + t) (y + t) = ae_equal eps x y
  /\ ae_less eps (x + t) (y + t) = ae_less eps x y.
Proof.
  split; apply eq_true_iff_eq; rewrite ?ae_equal_iff, ?ae_less_iff; split; intro; lra.
Qed.

Lemma ae_not_transitive eps : (0 < eps)%Q ->
  exists x y z, ae_equal eps x y = true /\ ae_equal eps y z = true
                /\ ae_equal eps x z = false.
Proof.
  intro He. exists 0%Q, eps, (eps + eps)%Q.
  repeat split; try (apply ae_equal_iff; lra).
  destruct (ae_equal eps 0 (eps + eps)) eqn:E; [|reflexivity].
  apply ae_equal_iff in E. lra.
Qed.

(** ** Literals *)

(** Mathematical value of a digit string, most significant first. *)
Definition numeral (base : Z) (ds : list Z) : Z :=
  fold_left (fun v d => v * base + d) ds 0.

Lemma numeral_from base : forall ds v,
  fold_left (fun v d => v * base + d) ds v
  = v * base ^ Z.of_nat (length ds) + numeral base ds.
Proof.
  intro ds. unfold numeral. induction ds as [|d ds IH] using rev_ind; intro v.
  - simpl. lia.
  - rewrite !fold_left_app. simpl. rewrite IH, app_length. cbn [length].
    rewrite Nat2Z.inj_add, Z.pow_add_r by lia. change (base ^ Z.of_nat 1) with (base ^ 1).
    rewrite Z.pow_1_r. ring.
Qed.

Definition digits_ok (base : Z) (ds : list Z) : Prop :=
  Forall (fun d => 0 <= d < base) ds.

Lemma fold_mono base : 1 < base -> forall ds v, 0 <= v -> digits_ok base ds ->
  v <= fold_left (fun v d => v * base + d) ds v.
Proof.
  intros Hb ds. induction ds as [|d ds IH]; intros v Hv Hd; simpl; [lia|].
  inversion_clear Hd. transitivity (v * base + d); [nia|]. apply IH; [nia|assumption].
Qed.

(** [lit_fold] returns the exact value iff every digit is valid and the value
    fits. *)
Lemma lit_fold_spec umax base : 1 < base -> 0 <= umax -> forall ds x,
  0 <= x <= umax -> forall v,
  lit_fold umax base x ds = Some v <->
  digits_ok base ds /\ v = fold_left (fun v d => v * base + d) ds x /\ v <= umax.
Proof.
  intros Hb Hu ds. induction ds as [|d ds IH]; intros x Hx v; cbn [lit_fold].
  - simpl. split.
    + intro E. injection E as <-. repeat split; [constructor|lia].
    + intros (_ & -> & _). reflexivity.
  - destruct ((0 <=? d) && (d <? base)) eqn:Ed.
    + apply andb_true_iff in Ed as [E1 E2]. apply Z.leb_le in E1. apply Z.ltb_lt in E2.
      destruct (Z.leb_spec x ((umax - d) / base)) as [L|L].
      * assert (Hfit : base * x + d <= umax).
        { pose proof (Z.mul_div_le (umax - d) base ltac:(lia)). nia. }
        rewrite IH by nia. cbn [fold_left].
        replace (d + base * x) with (x * base + d) by ring.
        split; intros (A & B & C); repeat split; auto; [constructor; auto|now inversion A].
      * split; [discriminate|]. intros (A & B & C). exfalso.
        inversion_clear A as [|? ? A1 A2]. cbn [fold_left] in B.
        pose proof (fold_mono base Hb ds (x * base + d) ltac:(nia) A2).
        assert (x <= (umax - d) / base) by (apply Z.div_le_lower_bound; nia). lia.
    + split; [discriminate|]. intros (A & _). inversion_clear A.
      apply andb_false_iff in Ed. destruct Ed; lia.
Qed.
