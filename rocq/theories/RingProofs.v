(** Proofs about the modular ring (properties C02 - C05). *)
From Coq Require Import ZArith List Bool Lia Znumtheory.
From Verif Require Import Outcome NumericModel PowProofs.
Import ListNotations.
Local Open Scope Z_scope.

(** A ring of [m] residues stored in [w]-bit words: [m] may be [2^w], in which
    case the stored modulus wraps to 0. *)
Definition word_ok (w : Z) : Prop := 0 < w <= 32 \/ 64 <= w.

Section Ring.
  Variable w : Z.
  Variable st : bool.
  Variable m : Z.
  Hypothesis Hw : 0 < w.
  Hypothesis Hm : 0 < m <= 2 ^ w.
  Notation md := (m mod 2 ^ w).

  Lemma pow_pos_w : 1 < 2 ^ w.
  Proof. apply Z.pow_gt_1; lia. Qed.

  Lemma wrap_small x : 0 <= x < 2 ^ w -> wrap w x = x.
  Proof. intro. unfold wrap. now apply Z.mod_small. Qed.

  Lemma wrap_shift x k : wrap w (x + k * 2 ^ w) = wrap w x.
  Proof. unfold wrap. apply Z_mod_plus_full. Qed.

  (** [mod - y] as a word: [m - y] unless it is exactly [2^w]. *)
  Lemma wrap_md_sub y : wrap w (md - y) = wrap w (m - y).
  Proof. unfold wrap. now rewrite Zminus_mod_idemp_l. Qed.

  Lemma wrap_m_sub y : 0 <= y < m ->
    (y = 0 /\ m = 2 ^ w /\ wrap w (md - y) = 0)
    \/ wrap w (md - y) = m - y.
  Proof.
    intro Hy. pose proof pow_pos_w. rewrite wrap_md_sub.
    destruct (Z.eq_dec (m - y) (2 ^ w)) as [E|E].
    - left. split; [lia|]. split; [lia|]. rewrite E. unfold wrap. apply Z_mod_same_full.
    - right. apply wrap_small. lia.
  Qed.

  Lemma mod_unique a b k : 0 <= b < m -> a = m * k + b -> a mod m = b.
  Proof. intros. symmetry. apply Z.mod_unique with k; [left; lia|lia]. Qed.

  Lemma mod_add_ok x y : 0 <= x < m -> 0 <= y < m ->
    mod_add w md x y = (x + y) mod m.
  Proof.
    intros Hx Hy. pose proof pow_pos_w. unfold mod_add.
    destruct (wrap_m_sub y Hy) as [(E1 & E2 & E)|E]; rewrite E.
    - destruct (Z.ltb_spec x 0); [lia|]. rewrite wrap_small by lia.
      symmetry. apply mod_unique with 0; lia.
    - destruct (Z.ltb_spec x (m - y)).
      + rewrite wrap_small by lia. symmetry. apply mod_unique with 0; lia.
      + rewrite wrap_small by lia. symmetry. apply mod_unique with 1; lia.
  Qed.

  Lemma mod_sub_ok x y : 0 <= x < m -> 0 <= y < m ->
    mod_sub w md x y = (x - y) mod m.
  Proof.
    intros Hx Hy. pose proof pow_pos_w. unfold mod_sub.
    destruct (Z.ltb_spec x y).
    - destruct (wrap_m_sub y Hy) as [(E1 & E2 & E)|E]; rewrite E; [lia|].
      rewrite wrap_small by lia. symmetry. apply mod_unique with (-1); lia.
    - rewrite wrap_small by lia. symmetry. apply mod_unique with 0; lia.
  Qed.

  Lemma mod_neg_ok x : 0 <= x < m -> mod_neg w md x = (- x) mod m.
  Proof. intro. unfold mod_neg. rewrite mod_sub_ok by lia. f_equal. Qed.

  Lemma mod_bounds x : 0 <= x mod m < m.
  Proof. apply Z.mod_pos_bound. lia. Qed.

  Lemma mul_loop_S f r x y :
    mul_loop w md (S f) r x y =
    let r' := if Z.land y 1 =? 1 then mod_add w md r x else r in
    if y / 2 =? 0 then Ok r' else mul_loop w md f r' (mod_add w md x x) (y / 2).
  Proof. reflexivity. Qed.

  Lemma mul_loop_ok fuel : forall r x y,
    0 <= r < m -> 0 <= x < m -> 0 <= y < 2 ^ (Z.of_nat fuel) ->
    mul_loop w md (S fuel) r x y = Ok ((r + x * y) mod m).
  Proof.
    induction fuel as [|fuel IH]; intros r x y Hr Hx Hy.
    - assert (y = 0) by (simpl in Hy; lia). subst. simpl.
      f_equal. symmetry. apply mod_unique with 0; lia.
    - rewrite mul_loop_S. cbv zeta. rewrite land1 by lia.
      pose proof (Z.div_mod y 2 ltac:(lia)) as E. rewrite Zmod_odd in E.
      assert (0 <= y / 2) by (apply Z.div_pos; lia).
      replace (Z.of_nat (S fuel)) with (1 + Z.of_nat fuel) in Hy by lia.
      rewrite Z.pow_add_r in Hy by lia. change (2 ^ 1) with 2 in Hy.
      assert (Hy2 : y / 2 < 2 ^ Z.of_nat fuel) by (destruct (Z.odd y); lia).
      set (r' := if Z.odd y then mod_add w md r x else r).
      assert (Hr' : r' = (r + x * (if Z.odd y then 1 else 0)) mod m).
      { unfold r'. destruct (Z.odd y).
        - rewrite mod_add_ok by lia. f_equal. lia.
        - symmetry. apply mod_unique with 0; lia. }
      assert (Hb : 0 <= r' < m) by (rewrite Hr'; apply mod_bounds).
      destruct (Z.eqb_spec (y / 2) 0).
      + f_equal. rewrite Hr'. rewrite e in E. simpl in E. now rewrite <- E.
      + rewrite (mod_add_ok x x Hx Hx).
        rewrite IH; [|lia|apply mod_bounds|lia].
        f_equal. rewrite Hr'.
        rewrite Zplus_mod_idemp_l.
        rewrite <- Zplus_mod_idemp_r, Zmult_mod_idemp_l, Zplus_mod_idemp_r.
        f_equal.
        replace (x * y) with (x * (2 * (y / 2) + (if Z.odd y then 1 else 0))) by (now rewrite <- E).
        ring.
  Qed.

  Lemma mod_mul_binary_ok x y : 0 <= x < m -> 0 <= y < m ->
    mod_mul_binary w md x y = Ok ((x * y) mod m).
  Proof.
    intros Hx Hy. unfold mod_mul_binary.
    rewrite mul_loop_ok; [f_equal; f_equal|lia|lia|].
    rewrite Z2Nat.id by lia. lia.
  Qed.

  (** The stored modulus may be 0 only on paths that do not divide by it. *)
  Hypothesis Hwidth : word_ok w.
  Hypothesis Hzero : m = 2 ^ w -> st = true \/ 64 <= w.

  Lemma mod_mul_ok x y : 0 <= x < m -> 0 <= y < m ->
    mod_mul w st md x y = Ok ((x * y) mod m).
  Proof.
    intros Hx Hy. pose proof pow_pos_w. unfold mod_mul.
    destruct (Z.eq_dec m (2 ^ w)) as [E|E].
    - assert (Emd : md = 0) by (rewrite E; apply Z_mod_same_full).
      rewrite Emd. simpl. destruct st; simpl.
      + unfold wrap. now rewrite E.
      + destruct (Hzero E); [discriminate|].
        destruct (Z.ltb_spec w 64); [lia|].
        rewrite <- Emd. now apply mod_mul_binary_ok.
    - assert (Emd : md = m) by (apply Z.mod_small; lia).
      rewrite Emd.
      destruct (Z.eqb_spec m 0); [lia|].
      rewrite andb_false_r.
      destruct (Z.ltb_spec w 64).
      + f_equal.
        assert (2 ^ w <= 2 ^ 32) by (apply Z.pow_le_mono_r; destruct Hwidth; lia).
        assert (0 <= x * y < 2 ^ 64).
        { change (2 ^ 64) with (2 ^ 32 * 2 ^ 32). split; [nia|]. nia. }
        unfold wrap at 2. rewrite (Z.mod_small (x * y)) by assumption.
        apply wrap_small. pose proof (mod_bounds (x * y)). lia.
      + rewrite <- Emd at 1. now apply mod_mul_binary_ok.
  Qed.

  Lemma div_loop_S f p a q b :
    div_loop w st md (S f) p a q b =
    if q =? 0 then Ok (p, a)
    else do t <- mod_mul w st md (p / q) b;
         div_loop w st md f q b (p mod q) (mod_sub w md a t).
  Proof. reflexivity. Qed.

  (** Extended Euclid: [p = a y] and [q = b y] modulo [m]. *)
  Lemma div_loop_ok fuel : forall p a q b y,
    0 <= p < m -> 0 <= q < m -> 0 <= a < m -> 0 <= b < m -> 0 < p + q ->
    q <= p ->
    p * q < 2 ^ (Z.of_nat fuel) ->
    (m | p - a * y) -> (m | q - b * y) ->
    exists a', div_loop w st md (S fuel) p a q b = Ok (Z.gcd p q, a')
               /\ 0 <= a' < m /\ (m | Z.gcd p q - a' * y).
  Proof.
    induction fuel as [|fuel IH]; intros p a q b y Hp Hq Ha Hb Hpq Hle Hf Hpa Hqb.
    - assert (q = 0) by (simpl in Hf; nia). subst q. simpl.
      rewrite Z.gcd_0_r, Z.abs_eq by lia. eauto.
    - rewrite div_loop_S. destruct (Z.eqb_spec q 0) as [E|E].
      + subst q. rewrite Z.gcd_0_r, Z.abs_eq by lia. eauto.
      + assert (Hd : 0 <= p / q <= p).
        { split; [apply Z.div_pos; lia|apply Z.div_le_upper_bound; nia]. }
        rewrite mod_mul_ok by lia. cbn [bind].
        rewrite mod_sub_ok by (try lia; apply mod_bounds).
        assert (Hmb : 0 <= p mod q < q) by (apply Z.mod_pos_bound; lia).
        pose proof (Z.div_mod p q E) as Ep.
        destruct (IH q b (p mod q) ((a - (p / q * b) mod m) mod m) y) as (a' & E' & Ha' & Hd').
        * lia.
        * lia.
        * lia.
        * apply mod_bounds.
        * lia.
        * lia.
        * replace (Z.of_nat (S fuel)) with (1 + Z.of_nat fuel) in Hf by lia.
          rewrite Z.pow_add_r in Hf by lia. change (2 ^ 1) with 2 in Hf.
          assert (1 <= p / q) by (apply Z.div_le_lower_bound; lia).
          assert (2 * (p mod q) <= p) by nia.
          assert (2 * (q * (p mod q)) <= p * q) by nia. lia.
        * assumption.
        * rewrite Zminus_mod_idemp_r.
          replace (p mod q) with (p - q * (p / q)) by lia.
          destruct Hpa as (k1 & K1). destruct Hqb as (k2 & K2).
          pose proof (Z.div_mod (a - p / q * b) m ltac:(lia)) as Em.
          exists (k1 - (p / q) * k2 + (a - p / q * b) / m * y).
          replace ((a - p / q * b) mod m) with (a - p / q * b - m * ((a - p / q * b) / m)) by lia.
          transitivity ((p - a * y) - p / q * (q - b * y) + (a - p / q * b) / m * y * m); [ring|].
          rewrite K1, K2. ring.
        * exists a'. rewrite E'.
          assert (Hg : Z.gcd q (p mod q) = Z.gcd p q).
          { rewrite (Z.gcd_comm q). rewrite Z.gcd_mod by lia. apply Z.gcd_comm. }
          rewrite Hg in *. auto.
  Qed.

  Lemma gcd_m_sub y : Z.gcd (m - y) y = Z.gcd m y.
  Proof.
    rewrite Z.gcd_comm. replace (m - y) with (m + (-1) * y) by lia.
    rewrite (Z.gcd_comm m y).
    now rewrite Z.gcd_add_mult_diag_r.
  Qed.

  Lemma div_loop_any fuel : forall p a q b y,
    0 <= p < m -> 0 <= q < m -> 0 <= a < m -> 0 <= b < m -> 0 < p + q ->
    p * q < 2 ^ (Z.of_nat fuel) ->
    (m | p - a * y) -> (m | q - b * y) ->
    exists a', div_loop w st md (S (S fuel)) p a q b = Ok (Z.gcd p q, a')
               /\ 0 <= a' < m /\ (m | Z.gcd p q - a' * y).
  Proof.
    intros p a q b y Hp Hq Ha Hb Hpq Hf Hpa Hqb.
    destruct (Z.le_gt_cases q p).
    - apply div_loop_ok; try assumption.
      replace (Z.of_nat (S fuel)) with (1 + Z.of_nat fuel) by lia.
      rewrite Z.pow_add_r by lia. lia.
    - (* the first iteration only swaps *)
      remember (S fuel) as f eqn:Ef. rewrite div_loop_S.
      destruct (Z.eqb_spec q 0); [lia|].
      rewrite (Z.div_small p q) by lia. rewrite (Z.mod_small p q) by lia.
      rewrite mod_mul_ok by lia. cbn [bind].
      replace (0 * b) with 0 by lia. rewrite Z.mod_0_l by lia.
      rewrite mod_sub_ok by lia. rewrite Z.sub_0_r, (Z.mod_small a m) by lia.
      rewrite (Z.gcd_comm p q). rewrite Ef. apply div_loop_ok; try assumption; try lia.
  Qed.

  Lemma mod_div_ok x y : 0 <= x < m -> 0 <= y < m ->
    ~ (m = 2 ^ w /\ y = 0) ->
    ((Z.gcd y m | x) ->
       exists q, mod_div w st md x y = Ok q /\ 0 <= q < m /\ (q * y) mod m = x)
    /\ (~ (Z.gcd y m | x) -> mod_div w st md x y = Throw).
  Proof.
    intros Hx Hy Hnz. pose proof pow_pos_w.
    assert (Hmy : wrap w (md - y) = m - y).
    { destruct (wrap_m_sub y Hy) as [(E1 & E2 & E)|E]; [tauto|exact E]. }
    assert (Hm1 : wrap w (md - 1) = m - 1).
    { rewrite wrap_md_sub. apply wrap_small. lia. }
    assert (L : exists a', div_loop w st md (2 * Z.to_nat w + 2) (m - y) (m - 1) y 1
                 = Ok (Z.gcd y m, a') /\ 0 <= a' < m /\ (m | Z.gcd y m - a' * y)).
    { destruct (Z.eq_dec y 0) as [->|Hy0].
      - replace (2 * Z.to_nat w + 2)%nat with (S (2 * Z.to_nat w + 1)) by lia.
        rewrite div_loop_S. simpl Z.eqb. cbv iota.
        exists (m - 1). rewrite Z.gcd_0_l, Z.abs_eq, Z.sub_0_r by lia.
        split; [reflexivity|]. split; [lia|]. exists 1. lia.
      - replace (2 * Z.to_nat w + 2)%nat with (S (S (2 * Z.to_nat w)))%nat by lia.
        destruct (div_loop_any (2 * Z.to_nat w) (m - y) (m - 1) y 1 y) as (a' & E & Ha & Hd);
          try lia.
        + rewrite Nat2Z.inj_mul, Z2Nat.id by lia. change (Z.of_nat 2) with 2.
          replace (2 * w) with (w + w) by lia. rewrite Z.pow_add_r by lia. nia.
        + exists (1 - y). ring.
        + exists 0. ring.
        + rewrite gcd_m_sub, Z.gcd_comm in E, Hd. eauto. }
    destruct L as (a' & E & Ha & Hd).
    unfold mod_div. rewrite Hmy, Hm1, E. cbn [bind].
    set (g := Z.gcd y m) in *.
    assert (Hg : 0 < g).
    { pose proof (Z.gcd_nonneg y m). assert (g <> 0); [|lia].
      intro E0. apply Z.gcd_eq_0 in E0. lia. }
    destruct (Z.eqb_spec g 0); [lia|].
    split; intro Hdiv.
    - assert (E0 : x mod g = 0) by (apply Z.mod_divide; [lia|assumption]).
      rewrite E0. simpl negb. cbv iota.
      assert (Hxg : 0 <= x / g < m).
      { split; [apply Z.div_pos; lia|]. apply Z.div_lt_upper_bound; nia. }
      rewrite mod_mul_ok by lia.
      exists ((a' * (x / g)) mod m). split; [reflexivity|].
      split; [apply mod_bounds|].
      rewrite Zmult_mod_idemp_l.
      destruct Hd as (k & K).
      pose proof (Z.div_mod x g ltac:(lia)) as Ex. rewrite E0 in Ex.
      apply mod_unique with (- k * (x / g)); [lia|].
      replace (a' * (x / g) * y) with ((a' * y) * (x / g)) by ring.
      replace (a' * y) with (g - k * m) by lia.
      rewrite Ex at 3. ring.
    - destruct (Z.eqb_spec (x mod g) 0) as [E0|E0]; [|reflexivity].
      exfalso. apply Hdiv. apply Z.mod_divide; [lia|assumption].
  Qed.
End Ring.

(** Division by zero in the ring of 2^w residues evaluates [x % 0]. *)
Lemma mod_div_zero_ub w st x : 0 < w -> mod_div w st 0 x 0 = UB.
Proof.
  intro. unfold mod_div.
  replace (2 * Z.to_nat w + 2)%nat with (S (2 * Z.to_nat w + 1)) by lia.
  cbn [div_loop]. simpl Z.eqb. cbv iota. cbn [bind].
  unfold wrap. rewrite Z.mod_0_l; [reflexivity|].
  apply Z.pow_nonzero; lia.
Qed.

(** Values of the ring: reduced residues. *)
Definition reduced (m x : Z) : Prop := 0 <= x < m.

Section Laws.
  Variable w : Z.
  Variable st : bool.
  Variable m : Z.
  Hypothesis Hw : word_ok w.
  Hypothesis Hm : 0 < m < 2 ^ w.
  Notation add := (mod_add w m).
  Notation sub := (mod_sub w m).
  Notation neg := (mod_neg w m).

  Let Hw0 : 0 < w. Proof. destruct Hw; lia. Qed.
  Let Emd : m mod 2 ^ w = m. Proof. apply Z.mod_small. lia. Qed.

  Lemma add_ok x y : reduced m x -> reduced m y -> add x y = (x + y) mod m.
  Proof. unfold reduced. intros. rewrite <- Emd at 1. apply mod_add_ok; lia. Qed.
  Lemma sub_ok x y : reduced m x -> reduced m y -> sub x y = (x - y) mod m.
  Proof. unfold reduced. intros. rewrite <- Emd at 1. apply mod_sub_ok; lia. Qed.
  Lemma neg_ok x : reduced m x -> neg x = (- x) mod m.
  Proof. unfold reduced. intros. rewrite <- Emd at 1. apply mod_neg_ok; lia. Qed.
  Lemma mul_ok x y : reduced m x -> reduced m y ->
    mod_mul w st m x y = Ok ((x * y) mod m).
  Proof.
    unfold reduced. intros. rewrite <- Emd at 1.
    apply mod_mul_ok; try assumption; lia.
  Qed.
  Lemma div_ok x y : reduced m x -> reduced m y ->
    ((Z.gcd y m | x) ->
       exists q, mod_div w st m x y = Ok q /\ reduced m q /\ (q * y) mod m = x)
    /\ (~ (Z.gcd y m | x) -> mod_div w st m x y = Throw).
  Proof.
    unfold reduced. intros Hx Hy.
    assert (E : mod_div w st m x y = mod_div w st (m mod 2 ^ w) x y) by now rewrite Emd.
    rewrite E. apply mod_div_ok; try assumption; try lia.
  Qed.
  Lemma reduced_mod x : reduced m (x mod m).
  Proof. apply Z.mod_pos_bound. lia. Qed.
End Laws.

(** Cancellation for prime moduli. *)
Lemma prime_mul_div w st m x y : word_ok w -> prime m -> m < 2 ^ w ->
  reduced m x -> reduced m y -> y <> 0 ->
  exists p, mod_mul w st m x y = Ok p /\ mod_div w st m p y = Ok x.
Proof.
  intros Hw Hp Hm Hx Hy Hy0.
  assert (Hm0 : 1 < m) by (destruct Hp; lia).
  assert (Hg : Z.gcd y m = 1).
  { apply Zgcd_1_rel_prime. apply rel_prime_sym. apply prime_rel_prime; [assumption|].
    intro D. apply Z.divide_pos_le in D; unfold reduced in *; lia. }
  exists ((x * y) mod m). split; [apply mul_ok; auto; lia|].
  assert (Hr : reduced m ((x * y) mod m)) by (apply Z.mod_pos_bound; lia).
  destruct (div_ok w st m Hw ltac:(lia) _ y Hr Hy) as [D _].
  destruct D as (q & E & Hq & Eq); [rewrite Hg; apply Z.divide_1_l|].
  rewrite E. f_equal. unfold reduced in *.
  (* q y = x y mod m, and y is invertible *)
  assert (Hd : (m | (q - x) * y)).
  { apply Z.mod_divide; [lia|]. replace ((q - x) * y) with (q * y - x * y) by ring.
    rewrite Zminus_mod, Eq, Zminus_mod_idemp_l, Zminus_mod_idemp_r.
    rewrite Z.sub_diag. apply Z.mod_0_l. lia. }
  assert (Hd2 : (m | q - x)).
  { rewrite Z.mul_comm in Hd. apply Gauss with y; [assumption|].
    apply rel_prime_sym. now apply Zgcd_1_rel_prime. }
  destruct Hd2 as (k & K). assert (k = 0) by nia. lia.
Qed.
