(** Proofs about distances and the closest pair over floating point numbers: FNearModel.v. *)
From Coq Require Import ZArith QArith Qround Qpower Qabs List Bool Lia Lqa Permutation Sorted.
From Verif Require Import Outcome FGeoModel FGeoProofs FPolyModel FExtModel FNearModel.
Import ListNotations.
Local Open Scope Q_scope.

(** ** Rounding of square roots *)
Lemma floor_sqrt q : 0 <= q -> let s := Z.sqrt (Qfloor q) in (0 <= s)%Z /\ inject_Z (s * s) <= q /\ q < inject_Z ((s + 1) * (s + 1)).
Proof.
  intros H s. destruct (floor_bounds q) as [A B].
  assert (F : (0 <= Qfloor q)%Z) by (change 0%Z with (Qfloor 0); now apply Qfloor_resp_le).
  destruct (Z.sqrt_spec (Qfloor q) F) as [S1 S2]. fold s in S1, S2. split; [apply Z.sqrt_nonneg|]. split.
  - apply Qle_trans with (inject_Z (Qfloor q)); [rewrite <- Zle_Qle; lia|exact A].
  - apply Qlt_le_trans with (inject_Z (Qfloor q) + 1); [exact B|]. change 1 with (inject_Z 1). rewrite <- inject_Z_plus, <- Zle_Qle. lia.
Qed.
Lemma nearest_root_cases q : let s := Z.sqrt (Qfloor q) in nearest_root q = s \/ nearest_root q = (s + 1)%Z.
Proof. cbn zeta. unfold nearest_root. destruct (Qcompare _ _); auto. destruct (Z.even _); auto. Qed.
Lemma nearest_root_ge q m : 0 <= q -> (0 <= m)%Z -> inject_Z (m * m) <= q -> (m <= nearest_root q)%Z.
Proof.
  intros H M B. destruct (floor_sqrt q H) as (S0 & S1 & S2). assert (m <= Z.sqrt (Qfloor q))%Z.
  { assert (inject_Z (m * m) < inject_Z ((Z.sqrt (Qfloor q) + 1) * (Z.sqrt (Qfloor q) + 1))) as X by lra. rewrite <- Zlt_Qlt in X. nia. }
  destruct (nearest_root_cases q); lia.
Qed.
Lemma nearest_root_le q m : 0 <= q -> (0 <= m)%Z -> q <= inject_Z (m * m) -> (nearest_root q <= m)%Z.
Proof.
  intros H M B. destruct (floor_sqrt q H) as (S0 & S1 & S2). set (s := Z.sqrt (Qfloor q)) in *.
  assert (L : (s <= m)%Z).
  { assert (inject_Z (s * s) <= inject_Z (m * m)) as X by lra. rewrite <- Zle_Qle in X. nia. }
  destruct (Z.eq_dec s m) as [E|E]; [|destruct (nearest_root_cases q) as [X|X]; fold s in X; lia].
  unfold nearest_root. fold s. destruct (Qcompare_spec q (inject_Z (s * s + s) + (1 # 4))) as [C|C|C].
  - exfalso. subst m. assert (inject_Z (s * s) <= inject_Z (s * s + s)) by (rewrite <- Zle_Qle; lia). lra.
  - lia.
  - exfalso. subst m. assert (inject_Z (s * s) <= inject_Z (s * s + s)) by (rewrite <- Zle_Qle; lia). lra.
Qed.
Lemma nearest_root_half q m : 0 <= q -> (0 < m)%Z -> inject_Z (m * m - m) + (1 # 4) < q -> (m <= nearest_root q)%Z.
Proof.
  intros H M B. destruct (floor_sqrt q H) as (S0 & S1 & S2). set (s := Z.sqrt (Qfloor q)) in *.
  destruct (Z_le_gt_dec m s) as [L|L]; [destruct (nearest_root_cases q) as [X|X]; fold s in X; lia|].
  assert (inject_Z (m * m - m) < inject_Z ((s + 1) * (s + 1))) as X by lra. rewrite <- Zlt_Qlt in X.
  assert (s = m - 1)%Z by nia. unfold nearest_root. fold s. destruct (Qcompare_spec q (inject_Z (s * s + s) + (1 # 4))) as [C|C|C]; [exfalso|exfalso|lia].
  - replace (s * s + s)%Z with (m * m - m)%Z in C by (subst s; nia). lra.
  - replace (s * s + s)%Z with (m * m - m)%Z in C by (subst s; nia). lra.
Qed.
Lemma nearest_root_mono q r : 0 <= q -> q <= r -> (nearest_root q <= nearest_root r)%Z.
Proof.
  intros H L. destruct (floor_sqrt q H) as (S0 & S1 & S2). destruct (floor_sqrt r ltac:(lra)) as (T0 & T1 & T2).
  assert (E : (Z.sqrt (Qfloor q) <= Z.sqrt (Qfloor r))%Z) by (apply Z.sqrt_le_mono, Qfloor_resp_le, L).
  destruct (Z.eq_dec (Z.sqrt (Qfloor q)) (Z.sqrt (Qfloor r))) as [E'|E'].
  - unfold nearest_root. rewrite <- E'. set (s := Z.sqrt (Qfloor q)). set (c := inject_Z (s * s + s) + (1 # 4)).
    destruct (Qcompare_spec q c), (Qcompare_spec r c); try lra; try lia; destruct (Z.even s); lia.
  - destruct (nearest_root_cases q), (nearest_root_cases r); lia.
Qed.
(** The root is at most half a unit from the integer. *)
Lemma nearest_root_bounds q : 0 <= q -> let m := nearest_root q in
  (0 <= m)%Z /\ inject_Z (m * m - m) <= q /\ q <= inject_Z (m * m + m) + (1 # 4).
Proof.
  intros H. destruct (floor_sqrt q H) as (S0 & S1 & S2). cbn zeta. unfold nearest_root. set (s := Z.sqrt (Qfloor q)) in *.
  assert (E1 : inject_Z ((s + 1) * (s + 1) - (s + 1)) == inject_Z (s * s + s)) by (replace ((s + 1) * (s + 1) - (s + 1))%Z with (s * s + s)%Z by ring; reflexivity).
  assert (E2 : inject_Z (s * s - s) <= inject_Z (s * s)) by (rewrite <- Zle_Qle; lia).
  assert (E3 : inject_Z ((s + 1) * (s + 1)) <= inject_Z ((s + 1) * (s + 1) + (s + 1))) by (rewrite <- Zle_Qle; lia).
  destruct (Qcompare_spec q (inject_Z (s * s + s) + (1 # 4))) as [C|C|C]; [destruct (Z.even s)| |]; (split; [lia|]); split; lra.
Qed.
Lemma root_magnitude_spec q : 0 < q -> let k := root_magnitude q in 2 ^ (2 * (k - 1)) <= q /\ q < 2 ^ (2 * k).
Proof.
  intros H k. destruct (magnitude_spec q H) as [A B]. unfold k, root_magnitude. set (j := magnitude q) in *.
  pose proof (Z.div_mod (j + 1) 2 ltac:(lia)). pose proof (Z.mod_pos_bound (j + 1) 2 ltac:(lia)). set (t := ((j + 1) / 2)%Z) in *.
  pose proof (two_le (2 * (t - 1)) (j - 1) ltac:(lia)). pose proof (two_le j (2 * t) ltac:(lia)). lra.
Qed.
Lemma root_magnitude_mono q r : 0 < q -> q <= r -> (root_magnitude q <= root_magnitude r)%Z.
Proof. intros H L. pose proof (magnitude_mono q r H L). unfold root_magnitude. apply Z.div_le_mono; lia. Qed.
Lemma two_square e : 2 ^ (2 * e) == 2 ^ e * 2 ^ e.
Proof. replace (2 * e)%Z with (e + e)%Z by lia. apply two_plus. Qed.
Lemma square_inj (a b : Q) : 0 <= b -> a * a <= b * b -> a <= b.
Proof. intros B H. destruct (Qlt_le_dec b a) as [C|C]; [exfalso; nra|exact C]. Qed.
Section Root.
  Context (f : format).
  Hypothesis Hp : (1 <= prec f)%Z.
  Lemma root_scaled q : q == q / 2 ^ (2 * root_bit f q) * 2 ^ (2 * root_bit f q).
  Proof. field. apply two_nz. Qed.
  Lemma round_root_ge q m e : 0 < q -> (root_bit f q <= e)%Z -> (0 <= m)%Z -> (inject_Z m * 2 ^ e) * (inject_Z m * 2 ^ e) <= q ->
    inject_Z m * 2 ^ e <= round_root f q.
  Proof.
    intros H L M B. unfold round_root. set (b := root_bit f q) in *. pose proof (two_pos b) as P. pose proof (two_pos (2 * b)) as P2.
    assert (E : inject_Z m * 2 ^ e == inject_Z (m * 2 ^ (e - b)) * 2 ^ b).
    { rewrite inject_Z_mult, two_Z by lia. rewrite <- Qmult_assoc, <- two_plus. now replace (e - b + b)%Z with e by lia. }
    rewrite E in B |- *. apply Qmult_le_compat_r; [|lra]. rewrite <- Zle_Qle. apply nearest_root_ge.
    - apply Qle_shift_div_l; lra.
    - apply Z.mul_nonneg_nonneg; [exact M|apply Z.pow_nonneg; lia].
    - apply Qle_shift_div_l; [exact P2|]. rewrite two_square, inject_Z_mult.
      setoid_replace (inject_Z (m * 2 ^ (e - b)) * inject_Z (m * 2 ^ (e - b)) * (2 ^ b * 2 ^ b))
        with (inject_Z (m * 2 ^ (e - b)) * 2 ^ b * (inject_Z (m * 2 ^ (e - b)) * 2 ^ b)) by ring. exact B.
  Qed.
  Lemma round_root_le q m e : 0 < q -> (root_bit f q <= e)%Z -> (0 <= m)%Z -> q <= (inject_Z m * 2 ^ e) * (inject_Z m * 2 ^ e) ->
    round_root f q <= inject_Z m * 2 ^ e.
  Proof.
    intros H L M B. unfold round_root. set (b := root_bit f q) in *. pose proof (two_pos b) as P. pose proof (two_pos (2 * b)) as P2.
    assert (E : inject_Z m * 2 ^ e == inject_Z (m * 2 ^ (e - b)) * 2 ^ b).
    { rewrite inject_Z_mult, two_Z by lia. rewrite <- Qmult_assoc, <- two_plus. now replace (e - b + b)%Z with e by lia. }
    rewrite E in B |- *. apply Qmult_le_compat_r; [|lra]. rewrite <- Zle_Qle. apply nearest_root_le.
    - apply Qle_shift_div_l; lra.
    - apply Z.mul_nonneg_nonneg; [exact M|apply Z.pow_nonneg; lia].
    - apply Qle_shift_div_r; [exact P2|]. rewrite two_square, inject_Z_mult.
      setoid_replace (inject_Z (m * 2 ^ (e - b)) * inject_Z (m * 2 ^ (e - b)) * (2 ^ b * 2 ^ b))
        with (inject_Z (m * 2 ^ (e - b)) * 2 ^ b * (inject_Z (m * 2 ^ (e - b)) * 2 ^ b)) by ring. exact B.
  Qed.
  Lemma round_root_pos q : 0 < q -> 0 <= round_root f q.
  Proof.
    intros H. unfold round_root. apply Qmult_le_0_compat; [|pose proof (two_pos (root_bit f q)); lra].
    change 0 with (inject_Z 0). rewrite <- Zle_Qle. apply (nearest_root_bounds (q / 2 ^ (2 * root_bit f q))).
    pose proof (two_pos (2 * root_bit f q)). apply Qle_shift_div_l; lra.
  Qed.
  Lemma round_root_mono q r : 0 < q -> q <= r -> round_root f q <= round_root f r.
  Proof.
    intros H L. pose proof (root_magnitude_mono q r H L) as M.
    assert (Lb : (root_bit f q <= root_bit f r)%Z) by (unfold root_bit; lia).
    destruct (Z.eq_dec (root_bit f q) (root_bit f r)) as [E|E].
    - unfold round_root. rewrite <- E. apply Qmult_le_compat_r; [|apply Qlt_le_weak, two_pos].
      rewrite <- Zle_Qle. pose proof (two_pos (2 * root_bit f q)). apply nearest_root_mono; [apply Qle_shift_div_l; lra|].
      now apply div_two_le.
    - set (k := root_magnitude r). destruct (root_magnitude_spec r ltac:(lra)) as [R1 _]. fold k in R1.
      destruct (root_magnitude_spec q H) as [_ Q2].
      assert (Hk : root_bit f r = (k - prec f)%Z) by (unfold root_bit in *; fold k; lia).
      assert (Mq : (root_magnitude q <= k - 1)%Z) by (unfold root_bit in *; fold k in Lb, E, Hk; lia).
      pose proof (two_le (2 * root_magnitude q) (2 * (k - 1)) ltac:(lia)) as T.
      assert (One : (inject_Z 1 * 2 ^ (k - 1)) * (inject_Z 1 * 2 ^ (k - 1)) == 2 ^ (2 * (k - 1))).
      { rewrite two_square. change (inject_Z 1) with 1. ring. }
      apply Qle_trans with (inject_Z 1 * 2 ^ (k - 1)).
      + apply round_root_le; [exact H | lia | lia | rewrite One; lra].
      + apply round_root_ge; [lra | lia | lia | rewrite One; exact R1].
  Qed.
  (** The root of a rounded square is not less. *)
  Lemma representable_round q : (emin f + prec f <= magnitude q)%Z -> 0 < q -> representable f (round_pos f q).
  Proof.
    intros L H. unfold round_pos. assert (B : last_bit f q = (magnitude q - prec f)%Z) by (unfold last_bit; lia). rewrite B.
    apply representable_int; [exact Hp| |lia]. destruct (magnitude_spec q H) as [M1 M2]. pose proof (two_pos (magnitude q - prec f)) as P.
    assert (N0 : (0 <= nearest (q / 2 ^ (magnitude q - prec f)))%Z).
    { rewrite <- (nearest_int 0 0) by reflexivity. apply nearest_mono. apply Qle_shift_div_l; lra. }
    assert (N1 : (nearest (q / 2 ^ (magnitude q - prec f)) <= 2 ^ prec f)%Z).
    { rewrite <- (nearest_int (inject_Z (2 ^ prec f)) (2 ^ prec f)) by reflexivity. apply nearest_mono. apply Qle_shift_div_r; [exact P|].
      rewrite two_Z by lia. rewrite <- two_plus. replace (prec f + (magnitude q - prec f))%Z with (magnitude q) by lia. lra. }
    lia.
  Qed.
  Lemma normalise d : representable f d -> 0 < d -> exists M s, d == inject_Z M * 2 ^ s /\ (2 ^ (prec f - 1) <= M < 2 ^ prec f)%Z.
  Proof.
    intros (m & e & E & A & _) H. assert (M0 : (0 < m)%Z).
    { pose proof (two_pos e) as P. destruct (Z_lt_le_dec 0 m) as [L|L]; [exact L|exfalso].
      assert (inject_Z m <= 0) by (change 0 with (inject_Z 0); now rewrite <- Zle_Qle). nra. }
    destruct (Z.log2_spec m M0) as [L1 L2]. set (b := Z.log2 m) in *. assert (B0 : (0 <= b)%Z) by apply Z.log2_nonneg.
    assert (BP : (b < prec f)%Z) by (apply Z.log2_lt_pow2; lia).
    exists (m * 2 ^ (prec f - 1 - b))%Z, (e - (prec f - 1 - b))%Z. split.
    - rewrite inject_Z_mult, two_Z by lia. rewrite <- Qmult_assoc, <- two_plus. replace (prec f - 1 - b + (e - (prec f - 1 - b)))%Z with e by lia. exact E.
    - split.
      + replace (2 ^ (prec f - 1))%Z with (2 ^ b * 2 ^ (prec f - 1 - b))%Z by (rewrite <- Z.pow_add_r by lia; f_equal; lia).
        apply Z.mul_le_mono_nonneg_r; [apply Z.pow_nonneg; lia|exact L1].
      + replace (2 ^ prec f)%Z with (2 ^ Z.succ b * 2 ^ (prec f - 1 - b))%Z by (rewrite <- Z.pow_add_r by lia; f_equal; lia).
        apply Z.mul_lt_mono_pos_r; [apply Z.pow_pos_nonneg; lia|exact L2].
  Qed.
  Lemma root_square d : (2 <= prec f)%Z -> representable f d -> 0 < d -> 2 ^ (emin f + prec f) <= d -> 2 ^ (emin f + prec f) <= d * d ->
    d <= round_root f (round f (d * d)).
  Proof.
    intros Hp2 R H HN HN2. assert (D2 : 0 < d * d) by nra. rewrite (round_pos_Q f _ D2).
    destruct (normalise d R H) as (M & s & E & ML & MU). set (p := prec f) in *.
    assert (PM : (0 < 2 ^ (p - 1))%Z) by (apply Z.pow_pos_nonneg; lia).
    assert (Sq : d * d == inject_Z (M * M) * 2 ^ (2 * s)) by (rewrite E, inject_Z_mult, two_square; ring).
    pose proof (two_pos s) as Ps. pose proof (two_pos (2 * s)) as P2.
    assert (Up : d < 2 ^ (p + s)).
    { rewrite E, two_plus, <- (two_Z p) by lia. apply Qmult_lt_compat_r; [exact Ps|]. now rewrite <- Zlt_Qlt. }
    assert (Low : 2 ^ (p - 1 + s) <= d).
    { rewrite E, two_plus, <- (two_Z (p - 1)) by lia. apply Qmult_le_compat_r; [|lra]. now rewrite <- Zle_Qle. }
    assert (Sm : (emin f <= s)%Z).
    { assert (2 ^ (emin f + p) < 2 ^ (p + s)) as X by lra. apply two_lt_inv in X. lia. }
    destruct (magnitude_spec (d * d) D2) as [G1 G2]. set (j := magnitude (d * d)) in *.
    assert (J1 : (emin f + p < j)%Z).
    { assert (2 ^ (emin f + p) < 2 ^ j) as X by lra. now apply two_lt_inv in X. }
    assert (J2 : (j <= 2 * (p + s))%Z).
    { assert (2 ^ (j - 1) < 2 ^ (2 * (p + s))) as X. { rewrite two_square. pose proof (two_pos (p + s)). nra. } apply two_lt_inv in X. lia. }
    assert (J3 : (2 * (p + s) - 2 < j)%Z).
    { assert (2 ^ (2 * (p - 1 + s)) < 2 ^ j) as X. { rewrite two_square. pose proof (two_pos (p - 1 + s)). nra. } apply two_lt_inv in X. lia. }
    (* bounds of the rounded square *)
    set (q := round_pos f (d * d)).
    assert (LB : last_bit f (d * d) = (j - p)%Z) by (unfold last_bit; fold j; lia).
    assert (QL : 2 ^ (2 * (p - 1 + s)) <= q).
    { setoid_replace (2 ^ (2 * (p - 1 + s))) with (inject_Z 1 * 2 ^ (2 * (p - 1 + s))) by (symmetry; apply Qmult_1_l).
      apply round_pos_ge; [exact D2|lia|]. change (inject_Z 1) with 1. rewrite Qmult_1_l, two_square. pose proof (two_pos (p - 1 + s)). nra. }
    assert (Q0 : 0 < q) by (pose proof (two_pos (2 * (p - 1 + s))); lra).
    assert (Err : d * d - q <= 2 ^ (2 * s) * inject_Z (2 ^ (p - 1))).
    { unfold q, round_pos. rewrite LB. pose proof (nearest_error (d * d / 2 ^ (j - p))) as N. apply Qabs_Qle_condition in N.
      pose proof (two_pos (j - p)) as P3. set (n := inject_Z (nearest (d * d / 2 ^ (j - p)))) in *.
      assert (DD : d * d == d * d / 2 ^ (j - p) * 2 ^ (j - p)) by (field; apply two_nz).
      assert (d * d - n * 2 ^ (j - p) <= (1 # 2) * 2 ^ (j - p)).
      { set (w := d * d / 2 ^ (j - p)) in *. set (t := 2 ^ (j - p)) in *. clearbody w t n. rewrite DD. nra. }
      assert (2 ^ (2 * s) * inject_Z (2 ^ (p - 1)) == (1 # 2) * 2 ^ (p + 2 * s)).
      { rewrite two_Z by lia. change (1 # 2) with (2 ^ (-1)). rewrite <- !two_plus. now replace (2 * s + (p - 1))%Z with (-1 + (p + 2 * s))%Z by lia. }
      pose proof (two_le (j - p) (p + 2 * s) ltac:(lia)). lra. }
    destruct (Qlt_le_dec q (2 ^ (2 * (p + s)))) as [T|T].
    - assert (KB : root_bit f q = s).
      { destruct (root_magnitude_spec q Q0) as [K1 K2]. unfold root_bit. fold p. set (k := root_magnitude q) in *.
        assert (2 ^ (2 * (k - 1)) < 2 ^ (2 * (p + s))) as X by lra. apply two_lt_inv in X.
        assert (2 ^ (2 * (p - 1 + s)) < 2 ^ (2 * k)) as Y by lra. apply two_lt_inv in Y. lia. }
      rewrite E. destruct (Qlt_le_dec q (d * d)) as [C|C].
      + unfold round_root. rewrite KB. apply Qmult_le_compat_r; [|lra]. rewrite <- Zle_Qle.
        apply nearest_root_half; [apply Qle_shift_div_l; lra|lia|].
        assert (NE : M <> (2 ^ (p - 1))%Z).
        { intros EM. apply (Qlt_irrefl (d * d)). apply Qle_lt_trans with q; [|exact C].
          unfold q. assert (EX : d * d == inject_Z 1 * 2 ^ (2 * (p - 1 + s))).
          { rewrite Sq, EM, inject_Z_mult, !two_Z by lia. change (inject_Z 1) with 1. rewrite Qmult_1_l, <- !two_plus.
            now replace (p - 1 + (p - 1) + 2 * s)%Z with (2 * (p - 1 + s))%Z by lia. }
          rewrite EX at 1. apply round_pos_ge; [exact D2|lia|]. rewrite EX. apply Qle_refl. }
        apply Qlt_le_trans with (inject_Z (M * M - 2 ^ (p - 1))).
        * apply Qlt_le_trans with (inject_Z (M * M - M) + 1); [lra|]. change 1 with (inject_Z 1). rewrite <- inject_Z_plus, <- Zle_Qle. lia.
        * apply Qle_shift_div_l; [exact P2|]. replace (M * M - 2 ^ (p - 1))%Z with (M * M + - 2 ^ (p - 1))%Z by ring. rewrite inject_Z_plus, inject_Z_opp. rewrite Sq in Err. lra.
      + apply round_root_ge; [exact Q0|lia|lia|]. rewrite <- E. exact C.
    - assert (One : (inject_Z 1 * 2 ^ (p + s)) * (inject_Z 1 * 2 ^ (p + s)) == 2 ^ (2 * (p + s))) by (rewrite two_square; change (inject_Z 1) with 1; ring).
      assert (BQ : (root_bit f q <= p + s)%Z).
      { assert (QU : q <= 2 ^ (2 * (p + s))).
        { setoid_replace (2 ^ (2 * (p + s))) with (inject_Z 1 * 2 ^ (2 * (p + s))) by (symmetry; apply Qmult_1_l).
          apply round_pos_le; [exact D2|lia|]. change (inject_Z 1) with 1. rewrite Qmult_1_l, two_square. pose proof (two_pos (p + s)). nra. }
        destruct (root_magnitude_spec q Q0) as [K1 _]. unfold root_bit. fold p. set (k := root_magnitude q) in *.
        destruct (Z_lt_le_dec (p + s) (k - 1)) as [K|K]; [exfalso|lia].
        assert (2 ^ (2 * (p + s)) < 2 ^ (2 * (k - 1))) by (apply Qpower_lt_compat_l; [lia|reflexivity]). lra. }
      apply Qle_trans with (inject_Z 1 * 2 ^ (p + s)); [change (inject_Z 1) with 1; lra|].
      apply round_root_ge; [exact Q0|exact BQ|lia|]. rewrite One. exact T.
  Qed.
End Root.

(** ** Distances *)
Lemma nless_fin a b : nless (Fin a) (Fin b) = true <-> a < b.
Proof. cbn. destruct (Qcompare_spec a b); split; intros; try discriminate; try reflexivity; lra. Qed.
Lemma nless_fin_false a b : nless (Fin a) (Fin b) = false <-> b <= a.
Proof. cbn. destruct (Qcompare_spec a b); split; intros; try discriminate; try reflexivity; lra. Qed.
(** Powers of two between which differences are, so that squares neither underflow nor overflow. *)
Definition range (f : format) (lo hi : Z) : Prop :=
  (2 <= prec f)%Z /\ (emin f + prec f <= lo)%Z /\ (emin f + prec f <= 2 * lo)%Z /\ (lo <= hi)%Z /\ (hi < emax f)%Z /\ (2 * hi + 2 <= emax f)%Z.
Definition gap (lo hi : Z) (q : Q) : Prop := q == 0 \/ (2 ^ lo <= Qabs q /\ Qabs q <= 2 ^ hi).
Definition root (f : format) (q : Q) : Q := match Qcompare q 0 with Gt => round_root f q | _ => 0 end.
Section Distance.
  Context (f : format) (lo hi : Z).
  Hypothesis RG : range f lo hi.
  Let Hp : (1 <= prec f)%Z. Proof. destruct RG. lia. Qed.
  Let R := round f.
  Lemma root_pos q : 0 < q -> root f q = round_root f q.
  Proof. intros H. unfold root. destruct (Qcompare_spec q 0); [lra|lra|reflexivity]. Qed.
  Lemma root_zero q : q <= 0 -> root f q = 0.
  Proof. intros H. unfold root. destruct (Qcompare_spec q 0); [reflexivity|reflexivity|lra]. Qed.
  Lemma root_nonneg q : 0 <= root f q.
  Proof. destruct (Qlt_le_dec 0 q) as [H|H]; [rewrite root_pos by exact H; now apply round_root_pos|rewrite root_zero by exact H; lra]. Qed.
  Lemma root_mono q r : q <= r -> root f q <= root f r.
  Proof.
    intros H. destruct (Qlt_le_dec 0 q) as [P|P]; [rewrite !root_pos by lra; now apply round_root_mono|].
    rewrite (root_zero q P). apply root_nonneg.
  Qed.
  Lemma root_eq q r : q == r -> root f q == root f r.
  Proof. intros E. apply Qle_antisym; apply root_mono; lra. Qed.
  (** Squares and their sum, all rounded. *)
  Definition sq (d : Q) : Q := R (R d * R d).
  Definition ssum (dx dy : Q) : Q := R (sq dx + sq dy).
  Lemma pow_rep e : (emin f <= e)%Z -> representable f (2 ^ e).
  Proof.
    intros H. exists 1%Z, e. split; [symmetry; apply Qmult_1_l|]. split; [|exact H].
    assert (2 ^ 1 <= 2 ^ prec f)%Z by (apply Z.pow_le_mono_r; lia). lia.
  Qed.
  Lemma round_pow e : (emin f <= e)%Z -> R (2 ^ e) == 2 ^ e.
  Proof. intros H. apply round_exact; [exact Hp|now apply pow_rep]. Qed.
  Lemma R_abs q : Qabs (R q) == R (Qabs q).
  Proof.
    unfold R. destruct (Qlt_le_dec q 0) as [H|H].
    - assert (E : Qabs q == - q) by (rewrite Qabs_neg; lra). rewrite (round_eq f Hp _ _ E), (round_opp f Hp).
      pose proof (round_mono f Hp q 0 ltac:(lra)) as M. rewrite (round_zero f 0) in M by reflexivity. rewrite Qabs_neg; lra.
    - assert (E : Qabs q == q) by (now apply Qabs_pos). rewrite (round_eq f Hp _ _ E).
      pose proof (round_mono f Hp 0 q ltac:(lra)) as M. rewrite (round_zero f 0) in M by reflexivity. now apply Qabs_pos.
  Qed.
  Lemma R_eq q r : q == r -> R q == R r. Proof. apply round_eq. exact Hp. Qed.
  Lemma R_mono q r : q <= r -> R q <= R r. Proof. apply round_mono. exact Hp. Qed.
  Lemma R_zero q : q == 0 -> R q == 0. Proof. intros H. unfold R. rewrite round_zero by exact H. reflexivity. Qed.
  Lemma gap_round q : gap lo hi q -> gap lo hi (R q).
  Proof.
    destruct RG as (P & L1 & L2 & L3 & H1 & H2). intros [E|[A B]]; [left; now apply R_zero|right]. rewrite R_abs. split.
    - rewrite <- (round_pow lo) by lia. now apply R_mono.
    - rewrite <- (round_pow hi) by lia. now apply R_mono.
  Qed.
  Lemma big_rep q : q == 0 \/ 2 ^ (emin f + prec f) <= Qabs q -> representable f (R q).
  Proof.
    assert (Pos : forall q, 0 < q -> 2 ^ (emin f + prec f) <= q -> representable f (round_pos f q)).
    { clear q. intros q H L. apply representable_round; [exact Hp| |exact H]. destruct (magnitude_spec q H) as [_ M].
      assert (2 ^ (emin f + prec f) < 2 ^ magnitude q) as X by lra. apply two_lt_inv in X. lia. }
    intros [E|L].
    - apply representable_eq with (q := 0); [symmetry; now apply R_zero|]. exists 0%Z, (emin f). split; [reflexivity|]. split; [|lia].
      cbn. apply Z.pow_pos_nonneg; lia.
    - unfold R. destruct (Q_dec q 0) as [[H|H]|H].
      + rewrite round_neg_Q by exact H. rewrite Qabs_neg in L by lra. destruct (Pos (- q)) as (m & e & E1 & E2 & E3); [lra|exact L|].
        exists (- m)%Z, e. split; [rewrite E1, inject_Z_opp; ring|]. split; [lia|exact E3].
      + rewrite round_pos_Q by exact H. rewrite Qabs_pos in L by lra. now apply Pos.
      + exfalso. rewrite H in L. pose proof (two_pos (emin f + prec f)). change (Qabs 0) with 0 in L. lra.
  Qed.
  Lemma gap_big q : gap lo hi q -> q == 0 \/ 2 ^ (emin f + prec f) <= Qabs q.
  Proof. destruct RG as (P & L1 & L2 & L3 & H1 & H2). intros [E|[A B]]; [now left|right]. pose proof (two_le _ _ L1). lra. Qed.
  Lemma square_abs (q : Q) : q * q == Qabs q * Qabs q.
  Proof. destruct (Qlt_le_dec q 0) as [H|H]; [rewrite Qabs_neg by lra|rewrite Qabs_pos by lra]; ring. Qed.
  Lemma sq_range d : gap lo hi d -> representable f (sq d) /\ 0 <= sq d <= 2 ^ (2 * hi).
  Proof.
    intros G. apply gap_round in G. unfold sq. set (r := R d) in *. pose proof RG as (P & L1 & L2 & L3 & H1 & H2).
    assert (N0 : 0 <= R (r * r)).
    { apply Qle_trans with (R 0); [rewrite R_zero by reflexivity; lra|]. apply R_mono. rewrite square_abs. pose proof (Qabs_nonneg r). nra. }
    destruct G as [E|[A B]].
    - assert (E' : r * r == 0) by (rewrite E; ring). split; [apply big_rep; now left|]. rewrite (R_zero _ E'). pose proof (two_pos (2 * hi)). lra.
    - assert (S1 : 2 ^ (2 * lo) <= r * r) by (rewrite square_abs, two_square; pose proof (two_pos lo); nra).
      assert (S2 : r * r <= 2 ^ (2 * hi)) by (rewrite square_abs, two_square; pose proof (Qabs_nonneg r); nra).
      split; [|split; [exact N0|]].
      + apply big_rep. right. pose proof (two_le _ _ L2). rewrite Qabs_pos; pose proof (two_pos (2 * lo)); lra.
      + rewrite <- (round_pow (2 * hi)) by lia. now apply R_mono.
  Qed.
  Lemma ssum_range dx dy : gap lo hi dx -> gap lo hi dy -> 0 <= sq dx + sq dy <= 2 ^ (2 * hi + 1).
  Proof.
    intros G1 G2. destruct (sq_range dx G1) as [_ [A B]]. destruct (sq_range dy G2) as [_ [C D]].
    rewrite two_plus. change (2 ^ 1) with 2. lra.
  Qed.
  Lemma fin_round q : Qabs q <= 2 ^ (emax f - 1) -> exists r, to_num f q = Fin r /\ r == R q.
  Proof.
    intros H. destruct RG as (P & L1 & L2 & L3 & H1 & H2). rewrite to_num_finite by (try exact H; try exact Hp; lia).
    eexists. split; [reflexivity|]. apply Qred_correct.
  Qed.
  Lemma gap_max q : gap lo hi q -> Qabs q <= 2 ^ (emax f - 1).
  Proof.
    destruct RG as (P & L1 & L2 & L3 & H1 & H2). intros [E|[A B]].
    - rewrite E. change (Qabs 0) with 0. apply Qlt_le_weak, two_pos.
    - pose proof (two_le hi (emax f - 1) ltac:(lia)). lra.
  Qed.
  Lemma fsub_gap x y : gap lo hi (x - y) -> exists r, fsub f (Fin x) (Fin y) = Fin r /\ r == R (x - y).
  Proof.
    intros G. unfold fsub. cbn [neg_num fadd]. destruct (fin_round (x + - y)) as (r & E & V).
    - apply gap_max. exact G.
    - exists r. split; [exact E|exact V].
  Qed.
  Lemma fmul_gap r d : gap lo hi d -> r == R d -> exists s, fmul f (Fin r) (Fin r) = Fin s /\ s == sq d.
  Proof.
    intros G E. cbn [fmul]. pose proof RG as (P & L1 & L2 & L3 & H1 & H2). destruct (fin_round (r * r)) as (s & E1 & V).
    - apply gap_round in G. rewrite E. pose proof (two_le (2 * hi) (emax f - 1) ltac:(lia)).
      rewrite Qabs_pos by (rewrite square_abs; pose proof (Qabs_nonneg (R d)); nra).
      destruct G as [G|[A B]]; [rewrite G; pose proof (two_pos (emax f - 1)); lra|].
      rewrite square_abs. rewrite two_square in H. pose proof (Qabs_nonneg (R d)). nra.
    - exists s. split; [exact E1|]. rewrite V. unfold sq. apply R_eq. now rewrite E.
  Qed.
  Lemma fdistance_value xp yp xq yq : gap lo hi (xp - xq) -> gap lo hi (yp - yq) ->
    exists d, fdistance f (FP (Fin xp) (Fin yp)) (FP (Fin xq) (Fin yq)) = Fin d /\ d == root f (ssum (xp - xq) (yp - yq)).
  Proof.
    intros GX GY. unfold fdistance, fdot2, fpsub. cbn [fx fy]. pose proof RG as (P & L1 & L2 & L3 & H1 & H2).
    destruct (fsub_gap _ _ GX) as (rx & EX & VX). destruct (fsub_gap _ _ GY) as (ry & EY & VY). rewrite EX, EY. cbn [fx fy].
    destruct (fmul_gap rx _ GX VX) as (sx & EX2 & VX2). destruct (fmul_gap ry _ GY VY) as (sy & EY2 & VY2). rewrite EX2, EY2.
    destruct (sq_range _ GX) as [RX [X0 X1]]. destruct (sq_range _ GY) as [RY [Y0 Y1]]. pose proof (two_le (2 * hi + 1) (emax f - 1) ltac:(lia)) as T.
    pose proof (two_le (2 * hi) (2 * hi + 1) ltac:(lia)) as T'.
    cbn [fadd]. destruct (fin_round (0 + sx)) as (s0 & E0 & V0).
    { rewrite Qabs_pos by (rewrite VX2; lra). rewrite VX2. lra. }
    rewrite E0. cbn [fadd].
    assert (V0' : s0 == sq (xp - xq)).
    { rewrite V0. rewrite (R_eq (0 + sx) (sq (xp - xq))) by (rewrite VX2; ring). apply round_exact; [exact Hp|exact RX]. }
    destruct (ssum_range _ _ GX GY) as [S0 S1].
    destruct (fin_round (s0 + sy)) as (w & EW & VW).
    { rewrite Qabs_pos by (rewrite V0', VY2; lra). rewrite V0', VY2. lra. }
    rewrite EW.
    assert (VW' : w == ssum (xp - xq) (yp - yq)) by (rewrite VW; apply R_eq; rewrite V0', VY2; reflexivity).
    assert (W0 : 0 <= w).
    { rewrite VW. apply Qle_trans with (R 0); [rewrite R_zero by reflexivity; lra|]. apply R_mono. rewrite V0', VY2. lra. }
    cbn [fsqrt]. destruct (Qcompare_spec w 0) as [C|C|C]; [|lra|].
    - exists 0. split; [reflexivity|]. rewrite root_zero; [reflexivity|]. lra.
    - eexists. split; [reflexivity|]. rewrite Qred_correct, <- (root_pos w C). now apply root_eq.
  Qed.
  Lemma sq_opp d : sq (- d) == sq d.
  Proof. unfold sq. apply R_eq. assert (E : R (- d) == - R d) by (apply round_opp; exact Hp). rewrite E. ring. Qed.
  Lemma sq_eq d d' : d == d' -> sq d == sq d'.
  Proof. intros E. unfold sq. apply R_eq. assert (E' : R d == R d') by now apply R_eq. rewrite E'. reflexivity. Qed.
  (** The distance is at least the rounded difference of the coordinates. *)
  Lemma leg dx dy : gap lo hi dx -> gap lo hi dy -> Qabs (R dx) <= root f (ssum dx dy).
  Proof.
    intros GX GY. pose proof RG as (P & L1 & L2 & L3 & H1 & H2). destruct (gap_round _ GX) as [E|[A B]].
    - rewrite E. change (Qabs 0) with 0. apply root_nonneg.
    - set (d := Qabs (R dx)) in *. pose proof (two_pos lo) as PL. pose proof (two_le _ _ L1) as M1. pose proof (two_le _ _ L2) as M2.
      assert (RD : representable f d).
      { assert (RR : representable f (R dx)) by (apply big_rep; now apply gap_big). unfold d. destruct (Qlt_le_dec (R dx) 0) as [C|C].
        - destruct RR as (m & e & E1 & E2 & E3). exists (- m)%Z, e. split; [|split; [lia|exact E3]].
          rewrite Qabs_neg by lra. rewrite E1, inject_Z_opp. ring.
        - apply representable_eq with (q := R dx); [|exact RR]. symmetry. now apply Qabs_pos. }
      assert (DD : 2 ^ (2 * lo) <= d * d) by (rewrite two_square; nra).
      apply Qle_trans with (round_root f (round f (d * d))); [apply root_square; auto; lra|].
      assert (Q0 : 0 < round f (d * d)).
      { pose proof (R_mono _ _ DD) as X. rewrite (round_pow (2 * lo)) in X by lia. pose proof (two_pos (2 * lo)). unfold R in X. lra. }
      rewrite <- root_pos by exact Q0. apply root_mono. unfold ssum. destruct (sq_range _ GX) as [RX _]. destruct (sq_range _ GY) as [_ [Y0 _]].
      apply Qle_trans with (sq dx).
      + unfold sq. rewrite (round_eq f Hp (d * d) (R dx * R dx)); [apply Qle_refl|]. unfold d. symmetry. apply square_abs.
      + assert (EQ : R (sq dx) == sq dx) by (apply round_exact; [exact Hp|exact RX]). rewrite <- EQ at 1. apply R_mono. lra.
  Qed.
  Lemma ssum_comm dx dy : ssum dx dy == ssum dy dx.
  Proof. unfold ssum. apply R_eq. ring. Qed.
  Lemma root_ssum_eq dx dy dx' dy' : dx == dx' -> dy == dy' -> root f (ssum dx dy) == root f (ssum dx' dy').
  Proof. intros E1 E2. apply root_eq. unfold ssum. apply R_eq. rewrite (sq_eq _ _ E1), (sq_eq _ _ E2). reflexivity. Qed.
End Distance.

(** ** Errors *)
Lemma nearest_root_low q : 0 <= q -> (1 <= nearest_root q)%Z -> inject_Z (nearest_root q * nearest_root q - nearest_root q) + (1 # 4) <= q.
Proof.
  intros H M. destruct (floor_sqrt q H) as (S0 & S1 & S2). revert M. unfold nearest_root. set (s := Z.sqrt (Qfloor q)) in *. intros M.
  assert (E1 : inject_Z ((s + 1) * (s + 1) - (s + 1)) == inject_Z (s * s + s)) by (replace ((s + 1) * (s + 1) - (s + 1))%Z with (s * s + s)%Z by ring; reflexivity).
  assert (E2 : (1 <= s)%Z -> inject_Z (s * s - s) + 1 <= inject_Z (s * s)).
  { intros L. change 1 with (inject_Z 1). rewrite <- inject_Z_plus, <- Zle_Qle. lia. }
  destruct (Qcompare_spec q (inject_Z (s * s + s) + (1 # 4))) as [C|C|C]; [destruct (Z.even s)| |]; try (specialize (E2 M); lra); lra.
Qed.
Section Errors.
  Context (f : format) (lo hi : Z).
  Hypothesis RG : range f lo hi.
  Let Hp : (1 <= prec f)%Z. Proof. destruct RG. lia. Qed.
  Let u : Q := 2 ^ (- prec f).
  Lemma u_range : 0 < u /\ u <= 1 # 4.
  Proof.
    split; [apply two_pos|]. change (1 # 4) with (2 ^ (-2)). apply two_le. destruct RG. lia.
  Qed.
  Lemma round_rel q : 0 <= q -> q == 0 \/ 2 ^ (emin f + prec f) <= q -> q * (1 - u) <= round f q /\ round f q <= q * (1 + u).
  Proof.
    intros H [E|L].
    - rewrite round_zero by exact E. rewrite E. lra.
    - assert (Q0 : 0 < q) by (pose proof (two_pos (emin f + prec f)); lra). rewrite round_pos_Q by exact Q0.
      destruct (magnitude_spec q Q0) as [M1 M2]. set (j := magnitude q) in *.
      assert (J : (emin f + prec f < j)%Z) by (assert (2 ^ (emin f + prec f) < 2 ^ j) as X by lra; now apply two_lt_inv in X).
      assert (LB : last_bit f q = (j - prec f)%Z) by (unfold last_bit; fold j; lia).
      unfold round_pos. rewrite LB. pose proof (nearest_error (q / 2 ^ (j - prec f))) as N. apply Qabs_Qle_condition in N.
      pose proof (two_pos (j - prec f)) as P. set (n := inject_Z (nearest (q / 2 ^ (j - prec f)))) in *.
      assert (DD : q == q / 2 ^ (j - prec f) * 2 ^ (j - prec f)) by (field; apply two_nz).
      assert (T : 2 ^ (j - prec f) * (1 # 2) == 2 ^ (j - 1) * u).
      { unfold u. change (1 # 2) with (2 ^ (-1)). rewrite <- !two_plus. now replace (j - prec f + -1)%Z with (j - 1 + - prec f)%Z by lia. }
      assert (B : Qabs (n * 2 ^ (j - prec f) - q) <= 2 ^ (j - prec f) * (1 # 2)).
      { apply Qabs_Qle_condition. set (w := q / 2 ^ (j - prec f)) in *. set (t := 2 ^ (j - prec f)) in *. clearbody w t n. rewrite DD. nra. }
      apply Qabs_Qle_condition in B. destruct u_range as [U1 U2]. assert (2 ^ (j - 1) * u <= q * u) by (apply Qmult_le_compat_r; lra). lra.
  Qed.
  Lemma mul_rel a b k l a' b' : 0 <= a -> 0 <= b -> 0 <= k -> 0 <= l -> a' <= a * k -> b' <= b * l -> 0 <= b' -> a' * b' <= a * b * (k * l).
  Proof.
    intros A B K L H1 H2 B'. apply Qle_trans with (a * k * b'); [now apply Qmult_le_compat_r|].
    setoid_replace (a * b * (k * l)) with (b * l * (a * k)) by ring. setoid_replace (a * k * b') with (b' * (a * k)) by ring.
    apply Qmult_le_compat_r; [exact H2|]. now apply Qmult_le_0_compat.
  Qed.
  Definition cube (x : Q) : Q := x * (x * x).
  Lemma sq_rel d : gap lo hi d -> d * d * cube (1 - u) <= sq f d /\ sq f d <= d * d * cube (1 + u).
  Proof.
    intros G. destruct u_range as [U1 U2]. pose proof RG as (P & L1 & L2 & L3 & H1 & H2). set (a := Qabs d).
    pose proof (Qabs_nonneg d) as A0. fold a in A0.
    assert (AG : a == 0 \/ 2 ^ (emin f + prec f) <= a).
    { destruct (gap_big f lo hi RG d G) as [E|E]; [left; unfold a; rewrite E; reflexivity|now right]. }
    destruct (round_rel a A0 AG) as [B1 B2].
    assert (RA : round f d * round f d == round f a * round f a).
    { rewrite square_abs. rewrite (R_abs f lo hi RG d). reflexivity. }
    assert (R0 : 0 <= round f a) by (apply Qle_trans with (a * (1 - u)); [apply Qmult_le_0_compat; lra|exact B1]).
    assert (SG : round f a * round f a == 0 \/ 2 ^ (emin f + prec f) <= round f a * round f a).
    { destruct (gap_round f lo hi RG d G) as [E|[E _]].
      - left. rewrite <- RA, E. ring.
      - right. rewrite <- RA, square_abs. pose proof (two_le _ _ L2). rewrite two_square in H. pose proof (two_pos lo). nra. }
    assert (S0 : 0 <= round f a * round f a) by nra.
    destruct (round_rel _ S0 SG) as [C1 C2].
    assert (EQ : sq f d == round f (round f a * round f a)) by (unfold sq; apply round_eq; [exact Hp|exact RA]).
    rewrite EQ. assert (DA : d * d == a * a) by apply square_abs. rewrite DA. unfold cube. split.
    - apply Qle_trans with (round f a * round f a * (1 - u)); [|exact C1].
      setoid_replace (a * a * ((1 - u) * ((1 - u) * (1 - u)))) with ((a * (1 - u)) * (a * (1 - u)) * (1 - u)) by ring.
      apply Qmult_le_compat_r; [|lra]. assert (0 <= a * (1 - u)) by (apply Qmult_le_0_compat; lra). nra.
    - apply Qle_trans with (round f a * round f a * (1 + u)); [exact C2|].
      setoid_replace (a * a * ((1 + u) * ((1 + u) * (1 + u)))) with ((a * (1 + u)) * (a * (1 + u)) * (1 + u)) by ring.
      apply Qmult_le_compat_r; [|lra]. assert (0 <= a * (1 + u)) by (apply Qmult_le_0_compat; lra). nra.
  Qed.
  Lemma sq_gap d : gap lo hi d -> sq f d == 0 \/ 2 ^ (2 * lo) <= sq f d.
  Proof.
    intros G. pose proof RG as (P & L1 & L2 & L3 & H1 & H2). destruct (gap_round f lo hi RG d G) as [E|[E _]].
    - left. unfold sq. apply (R_zero f). rewrite E. ring.
    - right. unfold sq. rewrite <- (round_pow f lo hi RG (2 * lo)) by lia. apply (R_mono f lo hi RG). rewrite square_abs, two_square. pose proof (two_pos lo). nra.
  Qed.
  Lemma ssum_gap dx dy : gap lo hi dx -> gap lo hi dy -> let w := sq f dx + sq f dy in w == 0 \/ 2 ^ (2 * lo) <= w.
  Proof.
    intros GX GY. cbn zeta. destruct (sq_range f lo hi RG dx GX) as [_ [X0 _]]. destruct (sq_range f lo hi RG dy GY) as [_ [Y0 _]].
    destruct (sq_gap dx GX) as [X|X], (sq_gap dy GY) as [Y|Y]; [left|right|right|right]; lra.
  Qed.
  Lemma ssum_rel dx dy : gap lo hi dx -> gap lo hi dy -> let t := dx * dx + dy * dy in
    t * (cube (1 - u) * (1 - u)) <= ssum f dx dy /\ ssum f dx dy <= t * (cube (1 + u) * (1 + u)).
  Proof.
    intros GX GY. cbn zeta. destruct (sq_rel dx GX) as [X1 X2]. destruct (sq_rel dy GY) as [Y1 Y2]. destruct u_range as [U1 U2].
    pose proof RG as (P & L1 & L2 & L3 & H1 & H2). destruct (ssum_range f lo hi RG dx dy GX GY) as [S0 _].
    assert (SG : sq f dx + sq f dy == 0 \/ 2 ^ (emin f + prec f) <= sq f dx + sq f dy).
    { destruct (ssum_gap dx dy GX GY) as [E|E]; [now left|right]. pose proof (two_le _ _ L2). lra. }
    destruct (round_rel _ S0 SG) as [C1 C2]. unfold ssum. split.
    - apply Qle_trans with ((sq f dx + sq f dy) * (1 - u)); [|exact C1]. rewrite Qmult_assoc. apply Qmult_le_compat_r; lra.
    - apply Qle_trans with ((sq f dx + sq f dy) * (1 + u)); [exact C2|]. rewrite Qmult_assoc. apply Qmult_le_compat_r; lra.
  Qed.
  Lemma root_rel w : w == 0 \/ 2 ^ (2 * lo) <= w ->
    w <= root f w * root f w * ((1 + u) * (1 + u)) /\ root f w * root f w * ((1 - u) * (1 - u)) <= w.
  Proof.
    intros [E|L]; [rewrite root_zero by lra; rewrite E; lra|]. pose proof RG as (P & L1 & L2 & L3 & H1 & H2). destruct u_range as [U1 U2].
    assert (W0 : 0 < w) by (pose proof (two_pos (2 * lo)); lra). rewrite root_pos by exact W0.
    destruct (root_magnitude_spec w W0) as [K1 K2]. set (k := root_magnitude w) in *.
    assert (KL : (lo < k)%Z) by (assert (2 ^ (2 * lo) < 2 ^ (2 * k)) as X by lra; apply two_lt_inv in X; lia).
    assert (KB : root_bit f w = (k - prec f)%Z) by (unfold root_bit; fold k; lia).
    unfold round_root. rewrite KB. set (e := (k - prec f)%Z). pose proof (two_pos e) as PE. pose proof (two_pos (2 * e)) as PE2.
    set (N := w / 2 ^ (2 * e)). assert (DD : w == N * (2 ^ e * 2 ^ e)) by (rewrite <- two_square; unfold N; field; apply two_nz).
    assert (N0 : 0 <= N) by (unfold N; apply Qle_shift_div_l; lra).
    assert (ML : (2 ^ (prec f - 1) <= nearest_root N)%Z).
    { apply nearest_root_ge; [exact N0|apply Z.pow_nonneg; lia|]. unfold N. apply Qle_shift_div_l; [exact PE2|].
      rewrite inject_Z_mult, !two_Z by lia. rewrite <- !two_plus. replace (prec f - 1 + (prec f - 1) + 2 * e)%Z with (2 * (k - 1))%Z by (unfold e; lia). exact K1. }
    assert (P1 : (0 < 2 ^ (prec f - 1))%Z) by (apply Z.pow_pos_nonneg; lia).
    destruct (nearest_root_bounds N N0) as (_ & _ & B2). pose proof (nearest_root_low N N0 ltac:(lia)) as B1. cbn zeta in B2.
    set (m := nearest_root N) in *.
    assert (M1 : 1 # 2 <= inject_Z m * u).
    { apply Qle_trans with (inject_Z (2 ^ (prec f - 1)) * u).
      - rewrite two_Z by lia. unfold u. rewrite <- two_plus. replace (prec f - 1 + - prec f)%Z with (-1)%Z by lia. apply Qle_refl.
      - apply Qmult_le_compat_r; [now rewrite <- Zle_Qle|lra]. }
    assert (E1 : inject_Z (m * m + m) == inject_Z m * inject_Z m + inject_Z m) by (rewrite inject_Z_plus, inject_Z_mult; reflexivity).
    assert (E2 : inject_Z (m * m - m) == inject_Z m * inject_Z m - inject_Z m) by (unfold Z.sub; rewrite inject_Z_plus, inject_Z_mult, inject_Z_opp; reflexivity).
    assert (MP : 1 <= inject_Z m) by (change 1 with (inject_Z 1); rewrite <- Zle_Qle; lia).
    set (M := inject_Z m) in *. set (v := M * u) in *.
    assert (UP : N <= (M + v) * (M + v)) by nra.
    assert (DN : (M - v) * (M - v) <= N).
    { assert (v <= M * (1 # 4)) by (unfold v; rewrite !(Qmult_comm M); apply Qmult_le_compat_r; lra). nra. }
    assert (Q0 : 0 <= 2 ^ e * 2 ^ e) by nra. rewrite DD. split.
    - setoid_replace (M * 2 ^ e * (M * 2 ^ e) * ((1 + u) * (1 + u))) with ((M + v) * (M + v) * (2 ^ e * 2 ^ e)) by (unfold v; ring).
      now apply Qmult_le_compat_r.
    - setoid_replace (M * 2 ^ e * (M * 2 ^ e) * ((1 - u) * (1 - u))) with ((M - v) * (M - v) * (2 ^ e * 2 ^ e)) by (unfold v; ring).
      now apply Qmult_le_compat_r.
  Qed.
  Definition sixth (x : Q) : Q := cube x * cube x.
  (** Computed distances in order are nearly in order. *)
  Lemma distance_order dx dy ex ey : gap lo hi dx -> gap lo hi dy -> gap lo hi ex -> gap lo hi ey ->
    root f (ssum f dx dy) <= root f (ssum f ex ey) ->
    (dx * dx + dy * dy) * sixth (1 - u) <= (ex * ex + ey * ey) * sixth (1 + u).
  Proof.
    intros G1 G2 G3 G4 L. destruct u_range as [U1 U2]. pose proof RG as (P & L1 & L2 & L3 & H1 & H2).
    assert (WG : forall a b, gap lo hi a -> gap lo hi b -> ssum f a b == 0 \/ 2 ^ (2 * lo) <= ssum f a b).
    { intros a b GA GB. unfold ssum. destruct (ssum_gap a b GA GB) as [E|E]; [left; now apply (R_zero f)|right].
      rewrite <- (round_pow f lo hi RG (2 * lo)) by lia. now apply (R_mono f lo hi RG). }
    destruct (ssum_rel dx dy G1 G2) as [A1 _]. destruct (ssum_rel ex ey G3 G4) as [_ A2].
    destruct (root_rel _ (WG dx dy G1 G2)) as [B1 _]. destruct (root_rel _ (WG ex ey G3 G4)) as [_ B2].
    set (w1 := ssum f dx dy) in *. set (w2 := ssum f ex ey) in *. pose proof (root_nonneg f w1) as R1. set (r1 := root f w1) in *. set (r2 := root f w2) in *.
    cbn zeta in A1, A2. set (t1 := dx * dx + dy * dy) in *. set (t2 := ex * ex + ey * ey) in *. clearbody t1 t2 r1 r2 w1 w2.
    set (a := 1 - u) in *. set (b := 1 + u) in *. assert (HA : 0 < a) by (unfold a; lra). assert (HB : 0 < b) by (unfold b; lra). clearbody a b.
    assert (A3 : 0 <= cube a * a) by (unfold cube; repeat apply Qmult_le_0_compat; lra).
    assert (B3 : 0 <= cube b * b) by (unfold cube; repeat apply Qmult_le_0_compat; lra).
    assert (AA : 0 <= a * a) by nra. assert (BB : 0 <= b * b) by nra. assert (RR : r1 * r1 <= r2 * r2) by nra.
    apply Qle_trans with (w1 * (a * a)).
    { setoid_replace (t1 * sixth a) with (t1 * (cube a * a) * (a * a)) by (unfold sixth, cube; ring). now apply Qmult_le_compat_r. }
    apply Qle_trans with (r1 * r1 * (b * b) * (a * a)); [now apply Qmult_le_compat_r|].
    apply Qle_trans with (r2 * r2 * (b * b) * (a * a)); [apply Qmult_le_compat_r; [now apply Qmult_le_compat_r|exact AA]|].
    setoid_replace (r2 * r2 * (b * b) * (a * a)) with (r2 * r2 * (a * a) * (b * b)) by ring.
    apply Qle_trans with (w2 * (b * b)); [now apply Qmult_le_compat_r|].
    setoid_replace (t2 * sixth b) with (t2 * (cube b * b) * (b * b)) by (unfold sixth, cube; ring). now apply Qmult_le_compat_r.
  Qed.
End Errors.

(** ** The closest pair *)
(** Two elements at different positions of the list; all pairs of positions. *)
Definition two_in {A} (l : list A) (p q : A) : Prop := exists rest, Permutation (p :: q :: rest) l.
Lemma two_in_perm {A} (l l' : list A) p q : Permutation l l' -> two_in l p q -> two_in l' p q.
Proof. intros E [r H]. exists r. now rewrite H. Qed.
Lemma two_in_app_l {A} (l1 l2 : list A) p q : two_in l1 p q -> two_in (l1 ++ l2) p q.
Proof. intros [r H]. exists (r ++ l2). change (p :: q :: r ++ l2) with ((p :: q :: r) ++ l2). now rewrite H. Qed.
Lemma two_in_app_r {A} (l1 l2 : list A) p q : two_in l2 p q -> two_in (l1 ++ l2) p q.
Proof. intros H. apply (two_in_app_l l2 l1) in H. eapply two_in_perm; [|exact H]. apply Permutation_app_comm. Qed.
Lemma two_in_In {A} (l : list A) p q : two_in l p q -> In p l /\ In q l.
Proof. intros [r H]. split; rewrite <- H; cbn; auto. Qed.
Lemma pairs_perm {A} (R : A -> A -> Prop) (SYM : forall a b, R a b -> R b a) l l' : Permutation l l' -> ForallOrdPairs R l -> ForallOrdPairs R l'.
Proof.
  induction 1 as [|x l l' E IH|x y l|l1 l2 l3 E1 IH1 E2 IH2]; intros H; auto.
  - inversion H; subst. constructor; auto. now rewrite <- E.
  - inversion H as [|? ? F H']; subst. inversion H' as [|? ? F' H'']; subst. inversion F; subst. constructor; constructor; auto.
Qed.
Lemma pairs_app {A} (R : A -> A -> Prop) l1 l2 : ForallOrdPairs R l1 -> ForallOrdPairs R l2 -> (forall a b, In a l1 -> In b l2 -> R a b) ->
  ForallOrdPairs R (l1 ++ l2).
Proof.
  induction l1 as [|a l1 IH]; intros H1 H2 C; [exact H2|]. inversion H1; subst. cbn. constructor.
  - apply Forall_app. split; auto. apply Forall_forall. intros b B. apply C; auto. now left.
  - apply IH; auto. intros x y X Y. apply C; auto. now right.
Qed.
Lemma pairs_two {A} (R : A -> A -> Prop) l : ForallOrdPairs R l <-> forall p q l1 l2 l3, l = l1 ++ p :: l2 ++ q :: l3 -> R p q.
Proof.
  split.
  - intros H p q l1 l2 l3 ->. induction l1 as [|x l1 IH]; inversion H as [|? ? F H']; subst.
    + rewrite Forall_forall in F. apply F. apply in_app_iff. right. now left.
    + auto.
  - induction l as [|a l IH]; intros H; constructor.
    + apply Forall_forall. intros b B. apply in_split in B as (l2 & l3 & ->). now apply (H a b [] l2 l3).
    + apply IH. intros p q l1 l2 l3 ->. now apply (H p q (a :: l1) l2 l3).
Qed.
Lemma pairs_impl {A} (R S : A -> A -> Prop) l : (forall a b, R a b -> S a b) -> ForallOrdPairs R l -> ForallOrdPairs S l.
Proof. intros I H. induction H as [|a l F H IH]; constructor; auto. eapply Forall_impl; [|exact F]. auto. Qed.
Lemma sorted_app {A} (R : A -> A -> Prop) l1 l2 : StronglySorted R (l1 ++ l2) ->
  StronglySorted R l1 /\ StronglySorted R l2 /\ forall a b, In a l1 -> In b l2 -> R a b.
Proof.
  induction l1 as [|x l1 IH]; cbn; intros S; [split; [constructor|]; split; [exact S | intros ? ? []]|].
  inversion S as [|? ? S' F]; subst. destruct (IH S') as (A' & B & C). apply Forall_app in F as [F1 F2].
  split; [now constructor|]. split; auto. intros a b [<-|Ia] Ib; auto. rewrite Forall_forall in F2. auto.
Qed.
Lemma finsert_perm lt x l : Permutation (finsert lt x l) (x :: l).
Proof. induction l as [|y l IH]; cbn; [reflexivity|]. destruct (lt y x); [|reflexivity]. rewrite IH. constructor. Qed.
Lemma fsort_perm lt l : Permutation (fsort lt l) l.
Proof. induction l as [|x l IH]; cbn; [reflexivity|]. fold (fsort lt l). rewrite finsert_perm. now constructor. Qed.
Lemma fmerge_cons less a l1 b l2 : fmerge_by less (a :: l1) (b :: l2) =
  if less b a then b :: fmerge_by less (a :: l1) l2 else a :: fmerge_by less l1 (b :: l2).
Proof. reflexivity. Qed.
Lemma fmerge_perm less : forall l1 l2, Permutation (fmerge_by less l1 l2) (l1 ++ l2).
Proof.
  induction l1 as [|a l1 IH]; [reflexivity|]. induction l2 as [|b l2 IH2]; [cbn; now rewrite app_nil_r|].
  rewrite fmerge_cons. destruct (less b a).
  - rewrite IH2. apply Permutation_middle.
  - rewrite IH. reflexivity.
Qed.
Definition fin (a : num) : Q := match a with Fin q => q | _ => 0 end.
Definition X (p : fpt) : Q := fin (fx p).
Definition Y (p : fpt) : Q := fin (fy p).
Definition finite (p : fpt) : Prop := fx p = Fin (X p) /\ fy p = Fin (Y p).
Lemma findex_spec l : forall p q, In (p, q) (findex_pairs l) <-> exists l1 l2 l3, l = l1 ++ p :: l2 ++ q :: l3.
Proof.
  induction l as [|a l IH]; intros p q; cbn.
  - split; [tauto|]. intros (l1 & l2 & l3 & E). destruct l1; discriminate.
  - rewrite in_app_iff, IH, in_map_iff. split.
    + intros [(x & E & I)|(l1 & l2 & l3 & ->)].
      * injection E as -> ->. apply in_split in I as (l2 & l3 & ->). exists [], l2, l3. reflexivity.
      * exists (a :: l1), l2, l3. reflexivity.
    + intros (l1 & l2 & l3 & E). destruct l1 as [|x l1]; cbn in E; injection E as -> ->.
      * left. exists q. split; auto. apply in_app_iff. right. now left.
      * right. eauto.
Qed.
Lemma fskipn_head k : forall l : list fpt, (k < length l)%nat -> exists r, skipn k l = fvertex l k :: r.
Proof. unfold fvertex. induction k as [|k IH]; intros [|x l] L; cbn in *; try lia; [eauto|]. apply IH. lia. Qed.

Section Closest.
  Context (f : format) (D : fpt -> fpt -> Q) (good : fpt -> Prop).
  Definition between (a m b : Q) : Prop := (a <= m /\ m <= b) \/ (b <= m /\ m <= a).
  Hypothesis GF : forall p, good p -> finite p.
  Hypothesis GD : forall p q, good p -> good q -> fdistance f p q = Fin (D p q).
  Hypothesis DS : forall p q, good p -> good q -> D p q == D q p.
  Hypothesis D0 : forall p q, good p -> good q -> 0 <= D p q.
  Hypothesis DZ : forall p q, good p -> good q -> X p == X q -> Y p == Y q -> D p q == 0.
  Hypothesis GX : forall p m, good p -> good m -> exists g, nabs (fsub f (fx p) (fx m)) = Fin g
    /\ forall q, good q -> between (X p) (X m) (X q) -> g <= D p q.
  Hypothesis GY : forall p q, good p -> good q -> Y q <= Y p -> exists g, fsub f (fy p) (fy q) = Fin g
    /\ forall x, good x -> Y x <= Y q -> g <= D p x.

  Definition ymax (a b : fpt) : Prop := Y a <= Y b.
  Definition xmax (a b : fpt) : Prop := X a <= X b.
  Definition lexle (a b : fpt) : Prop := X a < X b \/ (X a == X b /\ Y a <= Y b).
  Lemma fy_less_spec a b : good a -> good b -> fy_less a b = true <-> Y a < Y b.
  Proof. intros A B. unfold fy_less. rewrite (proj2 (GF a A)), (proj2 (GF b B)). apply nless_fin. Qed.
  Lemma fy_less_false a b : good a -> good b -> fy_less a b = false <-> Y b <= Y a.
  Proof. intros A B. unfold fy_less. rewrite (proj2 (GF a A)), (proj2 (GF b B)). apply nless_fin_false. Qed.
  Section Sorting.
    Context (lt : fpt -> fpt -> bool) (R : fpt -> fpt -> Prop).
    Hypothesis Rt : forall x y, good x -> good y -> lt x y = true -> R x y.
    Hypothesis Rf : forall x y, good x -> good y -> lt x y = false -> R y x.
    Hypothesis Rtrans : forall x y z, R x y -> R y z -> R x z.
    Lemma finsert_sorted x l : good x -> Forall good l -> StronglySorted R l -> StronglySorted R (finsert lt x l).
    Proof.
      intros GO GL. induction 1 as [|y l S IH F]; cbn; [repeat constructor|]. inversion GL as [|? ? Gy Gl]; subst.
      destruct (lt y x) eqn:E.
      - constructor; auto. rewrite finsert_perm. constructor; auto.
      - constructor; [now constructor|]. constructor; [now apply Rf|].
        apply Rf in E; auto. eapply Forall_impl; [|exact F]. cbn. eauto.
    Qed.
    Lemma fsort_sorted l : Forall good l -> StronglySorted R (fsort lt l).
    Proof.
      induction 1 as [|x l G GL IH]; cbn; [constructor|]. fold (fsort lt l). apply finsert_sorted; auto. now rewrite fsort_perm.
    Qed.
  End Sorting.
  Lemma fsort_y l : Forall good l -> StronglySorted ymax (fsort fy_less l).
  Proof.
    apply fsort_sorted; unfold ymax.
    - intros x y A B H. apply fy_less_spec in H; auto. lra.
    - intros x y A B H. now apply fy_less_false in H.
    - intros; lra.
  Qed.
  Lemma fsort_x l : Forall good l -> StronglySorted lexle (fsort fpless l).
  Proof.
    assert (C : forall a b, good a -> good b -> ncompare (fx a) (fx b) = match Qcompare (X a) (X b) with Lt => -1 | Eq => 0 | Gt => 1 end%Z
       /\ ncompare (fy a) (fy b) = match Qcompare (Y a) (Y b) with Lt => -1 | Eq => 0 | Gt => 1 end%Z).
    { assert (N : forall x y, ncompare (Fin x) (Fin y) = match Qcompare x y with Lt => -1 | Eq => 0 | Gt => 1 end%Z).
      { intros x y. unfold ncompare. cbn. rewrite <- (Qcompare_antisym y x). destruct (Qcompare y x); reflexivity. }
      intros a b A B. destruct (GF a A) as [-> ->], (GF b B) as [-> ->]. split; apply N. }
    apply fsort_sorted; unfold lexle.
    - intros a b A B H. unfold fpless in H. destruct (C a b A B) as [E1 E2]. rewrite E1, E2 in H.
      destruct (Qcompare_spec (X a) (X b)), (Qcompare_spec (Y a) (Y b)); cbn in H; try discriminate; lra.
    - intros a b A B H. unfold fpless in H. destruct (C a b A B) as [E1 E2]. rewrite E1, E2 in H.
      destruct (Qcompare_spec (X a) (X b)), (Qcompare_spec (Y a) (Y b)); cbn in H; try discriminate; lra.
    - intros; lra.
  Qed.
  Lemma fmerge_sorted : forall l1 l2, Forall good l1 -> Forall good l2 -> StronglySorted ymax l1 -> StronglySorted ymax l2 ->
    StronglySorted ymax (fmerge_by fy_less l1 l2).
  Proof.
    induction l1 as [|a l1 IH]; intros l2 G1 G2 S1 S2; [exact S2|].
    induction S2 as [|b l2 S2 IH2 F2]; [exact S1|]. rewrite fmerge_cons. inversion S1 as [|? ? S1' F1]; subst.
    inversion G1 as [|? ? Ga Gl1]; subst. inversion G2 as [|? ? Gb Gl2]; subst. specialize (IH2 Gl2).
    destruct (fy_less b a) eqn:H.
    - apply fy_less_spec in H; auto. constructor; [exact IH2|]. rewrite fmerge_perm. apply Forall_app. split; [|exact F2].
      constructor; [unfold ymax; lra|]. eapply Forall_impl; [|exact F1]. unfold ymax. intros; lra.
    - apply fy_less_false in H; auto. constructor; [apply IH; auto; now constructor|]. rewrite fmerge_perm. apply Forall_app. split; [exact F1|].
      constructor; [exact H|]. eapply Forall_impl; [|exact F2]. unfold ymax. intros; lra.
  Qed.

  (** A result: the distance of two of the points. *)
  Definition val (res : fcloser) : Q := fin (fst res).
  Definition rvalid (points : list fpt) (res : fcloser) : Prop :=
    fst res = Fin (D (fst (snd res)) (snd (snd res))) /\ two_in points (fst (snd res)) (snd (snd res)).
  Definition rleast (points : list fpt) (res : fcloser) : Prop := ForallOrdPairs (fun a b => val res <= D a b) points.
  Lemma val_fin points res : rvalid points res -> fst res = Fin (val res).
  Proof. intros [E _]. unfold val. now rewrite E. Qed.
  Lemma fbrute_fold l : (forall p q, In (p, q) l -> good p /\ good q) -> forall res, fst res = Fin (val res) ->
    let r := fold_left (fbrute_step f) l res in
    fst r = Fin (val r) /\ val r <= val res /\ (forall p q, In (p, q) l -> val r <= D p q)
    /\ (r = res \/ (fst r = Fin (D (fst (snd r)) (snd (snd r))) /\ In (snd r) l)).
  Proof.
    induction l as [|pq l IH]; intros G res V; cbn; [split; [exact V|]; split; [lra|]; split; [tauto | auto]|].
    assert (GP : good (fst pq) /\ good (snd pq)) by (apply G; left; now destruct pq). destruct GP as [GP1 GP2].
    assert (E : fst (fbrute_step f res pq) = Fin (val (fbrute_step f res pq)) /\ val (fbrute_step f res pq) <= val res
      /\ val (fbrute_step f res pq) <= D (fst pq) (snd pq)
      /\ (fbrute_step f res pq = res \/ fbrute_step f res pq = (Fin (D (fst pq) (snd pq)), pq))).
    { unfold fbrute_step. rewrite (GD _ _ GP1 GP2), V. destruct (nless (Fin (D (fst pq) (snd pq))) (Fin (val res))) eqn:N.
      - apply nless_fin in N. split; [reflexivity|]. split; [now apply Qlt_le_weak|]. split; [apply Qle_refl|auto].
      - apply nless_fin_false in N. split; [exact V|]. split; [lra|]. split; [exact N|auto]. }
    destruct E as (E1 & E2 & E3 & E4). destruct (IH (fun p q I => G p q (or_intror I)) (fbrute_step f res pq) E1) as (A0 & A & B & C).
    cbn zeta in *. set (r := fold_left _ l _) in *. split; [exact A0|]. split; [lra|]. split.
    - intros p q [->|I]; [cbn in E3; lra|auto].
    - destruct C as [->|[C1 C2]]; [|right; auto]. destruct E4 as [->| ->]; [now left|]. right. cbn. auto.
  Qed.
  Lemma fbrute_spec points : Forall good points -> (2 <= length points)%nat -> rvalid points (fbrute f points) /\ rleast points (fbrute f points).
  Proof.
    intros GL L. unfold fbrute. pose proof (findex_spec points) as S.
    assert (G : forall p q, In (p, q) (findex_pairs points) -> good p /\ good q).
    { intros p q I. apply S in I as (l1 & l2 & l3 & ->). rewrite Forall_forall in GL. split; apply GL; repeat (rewrite in_app_iff; cbn); auto. }
    destruct (findex_pairs points) as [|pq l].
    { exfalso. destruct points as [|a [|b r]]; cbn in L; try lia. apply (proj2 (S a b)). exists [], [], r. reflexivity. }
    assert (GP : good (fst pq) /\ good (snd pq)) by (apply G; left; now destruct pq). rewrite GD by apply GP.
    destruct (fbrute_fold l (fun p q I => G p q (or_intror I)) (Fin (D (fst pq) (snd pq)), pq) eq_refl) as (A0 & A & B & C). cbn zeta in *.
    set (r := fold_left (fbrute_step f) l _) in *. unfold val at 2 in A. cbn in A. split.
    - assert (V : fst r = Fin (D (fst (snd r)) (snd (snd r))) /\ In (snd r) (pq :: l)).
      { destruct C as [->|[C1 C2]]; cbn; auto. }
      destruct V as [V1 V2]. split; [exact V1|]. destruct (snd r) as [p q]. apply S in V2 as (l1 & l2 & l3 & ->).
      exists (l1 ++ l2 ++ l3). cbn.
      rewrite <- (Permutation_middle l1 (l2 ++ q :: l3) p). constructor. rewrite !app_assoc. apply Permutation_middle.
    - apply pairs_two. intros p q l1 l2 l3 E. assert (I : In (p, q) (pq :: l)) by (apply S; eauto).
      destruct I as [->|I]; [exact A | auto].
  Qed.

  Definition yge (a b : fpt) : Prop := Y b <= Y a.
  Lemma fstrip_inner_spec p : good p -> forall tmp res, fst res = Fin (val res) -> Forall good tmp -> StronglySorted yge tmp -> (forall q, In q tmp -> Y q <= Y p) ->
    let r := fstrip_inner f p tmp res in
    fst r = Fin (val r) /\ val r <= val res /\ (forall q, In q tmp -> val r <= D p q)
    /\ (r = res \/ exists q, In q tmp /\ r = (Fin (D p q), (p, q))).
  Proof.
    intros GP. induction tmp as [|q tmp IH]; intros res V G S Yq; cbn; [split; [exact V|]; split; [lra|]; split; [tauto | auto]|].
    inversion S as [|? ? S' F]; subst. inversion G as [|? ? Gq Gt]; subst. assert (Yq0 : Y q <= Y p) by (apply Yq; now left).
    destruct (GY p q GP Gq Yq0) as (g & Eg & Bg). rewrite Eg, V. destruct (nless (Fin g) (Fin (val res))) eqn:H; cbn [negb].
    - rewrite (GD p q GP Gq).
      match goal with |- context [fstrip_inner f p tmp ?x] => set (res' := x) end.
      assert (R1 : fst res' = Fin (val res') /\ val res' <= val res /\ val res' <= D p q /\ (res' = res \/ res' = (Fin (D p q), (p, q)))).
      { unfold res'. destruct (nless (Fin (D p q)) (Fin (val res))) eqn:N.
        - apply nless_fin in N. split; [reflexivity|]. split; [now apply Qlt_le_weak|]. split; [apply Qle_refl|auto].
        - apply nless_fin_false in N. split; [exact V|]. split; [lra|]. split; [exact N|auto]. }
      destruct R1 as (R0 & R1 & R2 & R3).
      destruct (IH res' R0 Gt S') as (A0 & A & B & C); [intros x Xi; apply Yq; now right|].
      set (r := fstrip_inner f p tmp res') in *. split; [exact A0|].
      split; [lra|]. split; [intros x [<-|Xi]; [lra | auto]|].
      destruct C as [->|(x & Xi & ->)]; [|right; exists x; auto].
      destruct R3 as [->| ->]; [now left|]. right. exists q. auto.
    - apply nless_fin_false in H. split; [exact V|]. split; [lra|]. split; [|auto]. intros x [<-|Xi].
      + specialize (Bg q Gq ltac:(lra)). lra.
      + rewrite Forall_forall in F, Gt. specialize (F x Xi). specialize (Bg x (Gt x Xi) F). lra.
  Qed.
  Definition facross (mx : fpt) (a b : fpt) : Prop := between (X a) (X mx) (X b).
  Lemma facross_sym mx a b : facross mx a b -> facross mx b a.
  Proof. unfold facross, between. tauto. Qed.
  Lemma fstrip_loop_spec mx pts : good mx -> Forall good pts -> StronglySorted ymax pts -> forall rest done tmp res,
    pts = done ++ rest -> incl tmp done -> StronglySorted yge tmp ->
    rvalid pts res ->
    ForallOrdPairs (fun a b => facross mx a b -> val res <= D a b) done ->
    (forall q, In q done -> In q tmp \/ forall b, good b -> facross mx q b -> val res <= D q b) ->
    let r := fstrip_loop f (fx mx) rest tmp res in
    val r <= val res /\ rvalid pts r /\ ForallOrdPairs (fun a b => facross mx a b -> val r <= D a b) pts.
  Proof.
    intros GM GP SY. induction rest as [|p rest IH]; intros done tmp res E I S V C T; cbn.
    - rewrite app_nil_r in E. subst. split; [lra|]. auto.
    - assert (Gp : good p) by (rewrite Forall_forall in GP; apply GP; rewrite E, in_app_iff; right; now left).
      assert (Gd : forall q, In q done -> good q) by (intros q Q; rewrite Forall_forall in GP; apply GP; rewrite E, in_app_iff; now left).
      assert (Low : forall q, In q done -> Y q <= Y p).
      { intros q Q. rewrite E in SY. apply sorted_app in SY as (_ & _ & SX). apply SX; [exact Q|now left]. }
      assert (E' : pts = (done ++ [p]) ++ rest) by (rewrite <- app_assoc; exact E).
      destruct (GX p mx Gp GM) as (g & Eg & Bg). rewrite Eg, (val_fin pts res V).
      destruct (nless (Fin g) (Fin (val res))) eqn:H.
      + destruct (fstrip_inner_spec p Gp tmp res) as (A0 & A & B & DD); [exact (val_fin pts res V)| |exact S| |].
        { apply Forall_forall. intros q Q. apply Gd, I, Q. }
        { intros q Q. apply Low, I, Q. }
        set (r := fstrip_inner f p tmp res) in *.
        destruct (IH (done ++ [p]) (p :: tmp) r E') as (A' & B' & C'); auto.
        * intros x [<-|Xi]; apply in_app_iff; [right; now left | left; now apply I].
        * constructor; auto. apply Forall_forall. intros q Q. unfold yge. apply Low, I, Q.
        * destruct DD as [->|(q & Q & ->)]; [exact V|]. split; [reflexivity|]. cbn.
          apply I, in_split in Q as (d1 & d2 & ->). exists (d1 ++ d2 ++ rest). rewrite E, <- app_assoc. cbn.
          transitivity (q :: p :: d1 ++ d2 ++ rest); [constructor|].
          rewrite <- (Permutation_middle d1 (d2 ++ p :: rest) q). constructor.
          rewrite !app_assoc. apply Permutation_middle.
        * apply pairs_app.
          -- eapply pairs_impl; [|exact C]. intros x y Q Ac. specialize (Q Ac). lra.
          -- repeat constructor.
          -- intros a b Ia [<-|[]] Ac. destruct (T a Ia) as [Ta|Ta].
             ++ rewrite DS by auto. now apply B.
             ++ specialize (Ta p Gp Ac). lra.
        * intros q Q. apply in_app_iff in Q as [Q|[<-|[]]]; [|left; now left].
          destruct (T q Q) as [Tq|Tq]; [left; now right | right]. intros b Gb Ac. specialize (Tq b Gb Ac). lra.
        * split; [lra|]. auto.
      + apply nless_fin_false in H. apply (IH (done ++ [p]) tmp res E'); auto.
        * intros x Xi. apply in_app_iff. left. now apply I.
        * apply pairs_app; auto; [repeat constructor|].
          intros a b Ia [<-|[]] Ac. rewrite DS by auto. specialize (Bg a (Gd a Ia) (facross_sym _ _ _ Ac)). lra.
        * intros q Q. apply in_app_iff in Q as [Q|[<-|[]]]; auto. right. intros b Gb Ac. specialize (Bg b Gb Ac). lra.
  Qed.

  Theorem fnearest_rec_spec : forall fuel points, Forall good points -> (2 <= length points)%nat -> (length points <= fuel)%nat ->
    StronglySorted xmax points ->
    exists res pts, fnearest_rec fuel f points = Ok (res, pts) /\ Permutation pts points /\ StronglySorted ymax pts
    /\ rvalid points res /\ rleast points res.
  Proof.
    induction fuel as [|fuel IH]; intros points G L2 LF S; [lia|].
    cbn [fnearest_rec]. destruct (Nat.leb_spec (length points) 3) as [H|H].
    - eexists _, _. split; [reflexivity|]. split; [apply fsort_perm|]. split; [now apply fsort_y|]. now apply fbrute_spec.
    - set (n := length points) in *. set (m := (n / 2)%nat).
      assert (M : (2 <= m)%nat /\ (m + 2 <= n)%nat).
      { unfold m. pose proof (Nat.div_mod n 2 ltac:(lia)). pose proof (Nat.mod_upper_bound n 2 ltac:(lia)). lia. }
      assert (L1 : length (firstn m points) = m) by (rewrite firstn_length; fold n; lia).
      assert (L3 : length (skipn m points) = (n - m)%nat) by (rewrite skipn_length; reflexivity).
      pose proof (firstn_skipn m points) as FS. pose proof G as G'. rewrite <- FS in S, G'. apply Forall_app in G' as [G1 G3].
      apply sorted_app in S as (S1 & S3 & SX).
      destruct (IH (firstn m points)) as (lres & lp & E1 & P1 & Y1 & V1 & T1); auto; [lia | lia|].
      destruct (IH (skipn m points)) as (rres & rp & E3 & P3 & Y3 & V3 & T3); auto; [lia | lia|].
      rewrite E1, E3. cbn [bind]. set (mx := fvertex points m). set (res := if nless (fst rres) (fst lres) then rres else lres).
      set (pts := fmerge_by fy_less lp rp).
      assert (PP : Permutation pts points).
      { unfold pts. rewrite fmerge_perm, P1, P3, FS. reflexivity. }
      assert (GPT : Forall good pts) by (rewrite PP; exact G).
      assert (SP : StronglySorted ymax pts) by (apply fmerge_sorted; auto; [now rewrite P1|now rewrite P3]).
      destruct (fskipn_head m points ltac:(fold n; lia)) as [r3 Mid]. fold mx in Mid.
      assert (GM : good mx) by (rewrite Mid in G3; now inversion G3).
      assert (VR : rvalid points res).
      { unfold res. rewrite <- FS. destruct (nless (fst rres) (fst lres)).
        - destruct V3 as [A B]. split; auto. now apply two_in_app_r.
        - destruct V1 as [A B]. split; auto. now apply two_in_app_l. }
      destruct (fstrip_loop_spec mx pts GM GPT SP pts [] [] res) as (A & B & C); auto.
      all: try now constructor.
      + intros x [].
      + destruct VR as [VA VB]. split; auto. eapply two_in_perm; [symmetry; exact PP | exact VB].
      + eexists _, _. split; [reflexivity|]. split; [exact PP|]. split; [exact SP|]. split.
        * destruct B as [BA BB]. split; auto. eapply two_in_perm; [exact PP | exact BB].
        * set (r := fstrip_loop f (fx mx) pts [] res) in *.
          assert (RL : val res <= val lres /\ val res <= val rres).
          { unfold res. rewrite (val_fin _ _ V1), (val_fin _ _ V3). destruct (nless (Fin (val rres)) (Fin (val lres))) eqn:N.
            - apply nless_fin in N. lra.
            - apply nless_fin_false in N. lra. }
          assert (C' : ForallOrdPairs (fun a b => good a /\ good b /\ (facross mx a b -> val r <= D a b)) points).
          { apply (pairs_perm _) with (l := pts).
            - intros a b (Ga & Gb & Q). split; [exact Gb|]. split; [exact Ga|]. intros Ac. rewrite DS by auto. apply Q. now apply facross_sym.
            - exact PP.
            - apply pairs_two. intros a b l1 l2 l3 El. rewrite Forall_forall in GPT.
              split; [apply GPT; rewrite El; repeat (rewrite in_app_iff; cbn); auto|]. split; [apply GPT; rewrite El; repeat (rewrite in_app_iff; cbn); auto|].
              exact (proj1 (pairs_two _ _) C a b l1 l2 l3 El). }
          unfold rleast. rewrite <- FS. apply pairs_app.
          -- eapply pairs_impl; [|exact T1]. cbn. intros x y Q. lra.
          -- eapply pairs_impl; [|exact T3]. cbn. intros x y Q. lra.
          -- intros a b Ia Ib.
             assert (X1 : X a <= X mx) by (apply SX; auto; rewrite Mid; now left).
             assert (X2 : X mx <= X b).
             { rewrite Mid in S3, Ib. inversion S3 as [|? ? _ F]; subst. destruct Ib as [<-|Ib]; [lra|].
               rewrite Forall_forall in F. now apply F. }
             apply in_split in Ia as (a1 & a2 & Ea). apply in_split in Ib as (b1 & b2 & Eb).
             apply (proj1 (pairs_two _ _) C' a b a1 (a2 ++ b1) b2).
             ++ rewrite <- FS, Ea, Eb, <- !app_assoc. cbn. rewrite <- ?app_assoc. reflexivity.
             ++ left. lra.
  Qed.
  Lemma fadjacent_some l p q : fadjacent_equal l = Some (p, q) -> fpeq p q = true /\ two_in l p q.
  Proof.
    induction l as [|x l IH]; [discriminate|]. destruct l as [|y l]; [discriminate|]. cbn [fadjacent_equal].
    destruct (fpeq x y) eqn:E; intros H.
    - injection H as <- <-. split; [exact E|]. exists l. reflexivity.
    - destruct (IH H) as [A B]. split; [exact A|]. now apply (two_in_app_r [x]).
  Qed.
  Theorem fnearest_pair_spec points : Forall good points -> (2 <= length points)%nat ->
    exists p q, fnearest_pair f points = Ok (p, q) /\ two_in points p q /\ ForallOrdPairs (fun a b => D p q <= D a b) points.
  Proof.
    intros G L. unfold fnearest_pair. destruct (Z.ltb_spec 1 (Z.of_nat (length points))) as [_|H]; [|lia]. cbn [negb].
    assert (PS : Permutation (fsort fpless points) points) by apply fsort_perm.
    assert (GS : Forall good (fsort fpless points)) by now rewrite PS.
    pose proof (fsort_x points G) as SS. pose proof (fadjacent_some (fsort fpless points)) as A. destruct (fadjacent_equal (fsort fpless points)) as [[p q]|].
    - destruct (A p q eq_refl) as [B C]. exists p, q. split; auto. assert (TW : two_in points p q) by (eapply two_in_perm; eauto). split; [exact TW|].
      destruct (two_in_In _ _ _ TW) as [Ip Iq]. rewrite Forall_forall in G. pose proof (G _ Ip) as Gp. pose proof (G _ Iq) as Gq.
      unfold fpeq in B. destruct (GF p Gp) as [Xp Yp], (GF q Gq) as [Xq Yq]. rewrite Xp, Yp, Xq, Yq in B. apply andb_true_iff in B as [B1 B2]. cbn in B1, B2.
      assert (Z0 : D p q == 0).
      { apply DZ; auto.
        - destruct (Qcompare_spec (X p) (X q)); [assumption|discriminate|discriminate].
        - destruct (Qcompare_spec (Y p) (Y q)); [assumption|discriminate|discriminate]. }
      apply pairs_two. intros a b l1 l2 l3 El. rewrite Z0. apply D0; apply G; rewrite El; repeat (rewrite in_app_iff; cbn); auto.
    - assert (SX : StronglySorted xmax (fsort fpless points)).
      { clear -SS. induction SS as [|x l S IH F]; constructor; auto. eapply Forall_impl; [|exact F]. unfold lexle, xmax. intros; lra. }
      destruct (fnearest_rec_spec (length (fsort fpless points)) (fsort fpless points)) as (res & pts & E & _ & _ & [V1 V2] & T); auto.
      { rewrite (Permutation_length PS). exact L. }
      rewrite E. cbn [bind]. unfold rleast, val in T. rewrite V1 in T. cbn [fin] in T. destruct (snd res) as [p q]. cbn in V2, T. exists p, q. split; auto.
      split; [eapply two_in_perm; eauto|].
      assert (T' : ForallOrdPairs (fun a b => good a /\ good b /\ D p q <= D a b) (fsort fpless points)).
      { apply pairs_two. intros a b l1 l2 l3 El. rewrite Forall_forall in GS.
        split; [apply GS; rewrite El; repeat (rewrite in_app_iff; cbn); auto|]. split; [apply GS; rewrite El; repeat (rewrite in_app_iff; cbn); auto|].
        exact (proj1 (pairs_two _ _) T a b l1 l2 l3 El). }
      eapply pairs_impl; [|eapply pairs_perm; [|exact PS|exact T']]; cbn.
      + intros a b (_ & _ & Q). exact Q.
      + intros a b (Ga & Gb & Q). split; [exact Gb|]. split; [exact Ga|]. rewrite <- (DS a b) by auto. exact Q.
  Qed.
End Closest.

(** ** Finite points whose differences are in a range *)
Definition apart (lo hi : Z) (points : list fpt) : Prop :=
  forall p q, In p points -> In q points -> gap lo hi (X p - X q) /\ gap lo hi (Y p - Y q).
Definition fdist (f : format) (p q : fpt) : Q := fin (fdistance f p q).
Definition real_dist2 (p q : fpt) : Q := (X p - X q) * (X p - X q) + (Y p - Y q) * (Y p - Y q).
Section Instance.
  Context (f : format) (lo hi : Z) (points : list fpt).
  Hypothesis RG : range f lo hi.
  Hypothesis FN : Forall finite points.
  Hypothesis AP : apart lo hi points.
  Let Hp : (1 <= prec f)%Z. Proof. destruct RG. lia. Qed.
  Let D := fdist f.
  Lemma D_value p q : In p points -> In q points -> fdistance f p q = Fin (D p q) /\ D p q == root f (ssum f (X p - X q) (Y p - Y q)).
  Proof.
    intros P Q. pose proof (proj1 (Forall_forall _ _) FN) as FN'. destruct (FN' p P) as [Xp Yp], (FN' q Q) as [Xq Yq]. destruct (AP p q P Q) as [A B].
    destruct (fdistance_value f lo hi RG (X p) (Y p) (X q) (Y q) A B) as (d & E & V).
    assert (EP : p = FP (Fin (X p)) (Fin (Y p))) by (destruct p; cbn in *; congruence).
    assert (EQ : q = FP (Fin (X q)) (Fin (Y q))) by (destruct q; cbn in *; congruence).
    assert (E' : fdistance f p q = Fin d) by (rewrite EP, EQ; exact E).
    unfold D, fdist. rewrite E'. cbn [fin]. split; [reflexivity|exact V].
  Qed.
  Lemma D_sym p q : In p points -> In q points -> D p q == D q p.
  Proof.
    intros P Q. rewrite (proj2 (D_value p q P Q)), (proj2 (D_value q p Q P)). apply (root_eq f lo hi RG). unfold ssum. apply round_eq; [exact Hp|].
    rewrite <- (sq_opp f lo hi RG (X p - X q)), <- (sq_opp f lo hi RG (Y p - Y q)).
    rewrite (sq_eq f lo hi RG (- (X p - X q)) (X q - X p)) by ring. rewrite (sq_eq f lo hi RG (- (Y p - Y q)) (Y q - Y p)) by ring. reflexivity.
  Qed.
  Lemma D_nonneg p q : In p points -> In q points -> 0 <= D p q.
  Proof. intros P Q. rewrite (proj2 (D_value p q P Q)). apply root_nonneg. Qed.
  Lemma D_zero p q : In p points -> In q points -> X p == X q -> Y p == Y q -> D p q == 0.
  Proof.
    intros P Q E1 E2. rewrite (proj2 (D_value p q P Q)).
    assert (Z0 : forall d, d == 0 -> sq f d == 0).
    { intros d E. unfold sq. apply (R_zero f). pose proof (R_zero f d E) as R0. cbn in R0. rewrite R0. ring. }
    rewrite root_zero; [reflexivity|]. unfold ssum. apply Qle_lteq. right. apply (R_zero f). rewrite !Z0 by lra. ring.
  Qed.
  Lemma D_x p m : In p points -> In m points -> exists g, nabs (fsub f (fx p) (fx m)) = Fin g
    /\ forall q, In q points -> between (X p) (X m) (X q) -> g <= D p q.
  Proof.
    intros P M. pose proof (proj1 (Forall_forall _ _) FN) as FN'. destruct (FN' p P) as [Xp _], (FN' m M) as [Xm _]. destruct (AP p m P M) as [A _].
    destruct (fsub_gap f lo hi RG (X p) (X m) A) as (r & E & V). exists (Qabs r). rewrite Xp, Xm, E. split; [reflexivity|].
    intros q Q B. destruct (AP p q P Q) as [A1 A2]. rewrite (proj2 (D_value p q P Q)).
    apply Qle_trans with (Qabs (round f (X p - X q))); [|exact (leg f lo hi RG _ _ A1 A2)].
    assert (E1 : Qabs r == round f (Qabs (X p - X m))) by (rewrite V; apply (R_abs f lo hi RG)).
    assert (E2 : Qabs (round f (X p - X q)) == round f (Qabs (X p - X q))) by apply (R_abs f lo hi RG). rewrite E1, E2.
    apply round_mono; [exact Hp|]. destruct B as [B|B].
    - rewrite (Qabs_neg (X p - X m)), (Qabs_neg (X p - X q)) by lra. lra.
    - rewrite (Qabs_pos (X p - X m)), (Qabs_pos (X p - X q)) by lra. lra.
  Qed.
  Lemma D_y p q : In p points -> In q points -> Y q <= Y p -> exists g, fsub f (fy p) (fy q) = Fin g
    /\ forall x, In x points -> Y x <= Y q -> g <= D p x.
  Proof.
    intros P Q L. pose proof (proj1 (Forall_forall _ _) FN) as FN'. destruct (FN' p P) as [_ Yp], (FN' q Q) as [_ Yq]. destruct (AP p q P Q) as [_ A].
    destruct (fsub_gap f lo hi RG (Y p) (Y q) A) as (r & E & V). exists r. rewrite Yp, Yq, E. split; [reflexivity|].
    intros x I B. destruct (AP p x P I) as [A1 A2]. rewrite (proj2 (D_value p x P I)).
    rewrite V. apply Qle_trans with (round f (Y p - Y x)); [apply round_mono; [exact Hp|lra]|].
    apply Qle_trans with (Qabs (round f (Y p - Y x))); [apply Qle_Qabs|].
    apply Qle_trans with (root f (ssum f (Y p - Y x) (X p - X x))); [exact (leg f lo hi RG _ _ A2 A1)|].
    apply Qle_lteq. right. apply (root_eq f lo hi RG). apply (ssum_comm f lo hi RG).
  Qed.
  Theorem closest : (2 <= length points)%nat ->
    exists p q, fnearest_pair f points = Ok (p, q) /\ two_in points p q /\ ForallOrdPairs (fun a b => D p q <= D a b) points.
  Proof.
    intros L. apply (fnearest_pair_spec f D (fun p => In p points)).
    - intros p P. pose proof (proj1 (Forall_forall _ _) FN) as FN'. now apply FN'.
    - intros p q P Q. apply D_value; assumption.
    - exact D_sym.
    - exact D_nonneg.
    - exact D_zero.
    - exact D_x.
    - exact D_y.
    - apply Forall_forall. auto.
    - exact L.
  Qed.
  (** Computed distances in order. *)
  Lemma near_order a b p q : In a points -> In b points -> In p points -> In q points -> D p q <= D a b ->
    real_dist2 p q * sixth (1 - 2 ^ (- prec f)) <= real_dist2 a b * sixth (1 + 2 ^ (- prec f)).
  Proof.
    intros A B P Q L. rewrite (proj2 (D_value p q P Q)), (proj2 (D_value a b A B)) in L. unfold real_dist2.
    destruct (AP p q P Q), (AP a b A B). now apply (distance_order f lo hi RG).
  Qed.
End Instance.

(** ** Square roots are rounded to the nearest number *)
Theorem sqrt_nearest f q : (1 <= prec f)%Z -> 0 < q -> exists r, fsqrt f (Fin q) = Fin r /\ 0 <= r /\ representable f r /\
  forall s, representable f s -> 0 <= s -> (r < s -> 4 * q <= (r + s) * (r + s)) /\ (s < r -> (r + s) * (r + s) <= 4 * q).
Proof.
  intros Hp Q0. cbn [fsqrt]. destruct (Qcompare_spec q 0) as [C|C|C]; [lra|lra|clear C]. exists (Qred (round_root f q)). split; [reflexivity|].
  assert (RE : Qred (round_root f q) == round_root f q) by apply Qred_correct. generalize dependent (Qred (round_root f q)). intros r RE.
  pose proof (round_root_pos f q Q0) as R0. split; [lra|]. destruct (root_magnitude_spec q Q0) as [K1 K2]. set (k := root_magnitude q) in *.
  unfold round_root in *. set (b := root_bit f q) in *. assert (B1 : (k - prec f <= b)%Z) by (unfold b, root_bit; fold k; lia).
  assert (B2 : (emin f <= b)%Z) by (unfold b, root_bit; lia). assert (B3 : (b = k - prec f \/ b = emin f)%Z) by (unfold b, root_bit; fold k; lia).
  clearbody b. pose proof (two_pos b) as PB. pose proof (two_pos (2 * b)) as PB2. set (N := q / 2 ^ (2 * b)) in *.
  assert (DD : q == N * (2 ^ b * 2 ^ b)) by (rewrite <- two_square; unfold N; field; apply two_nz).
  assert (N0 : 0 <= N) by (unfold N; apply Qle_shift_div_l; lra).
  destruct (nearest_root_bounds N N0) as (M0 & _ & BU). cbn zeta in M0, BU. pose proof (nearest_root_low N N0) as BL.
  assert (MT : (nearest_root N <= 2 ^ prec f)%Z).
  { apply nearest_root_le; [exact N0|apply Z.pow_nonneg; lia|]. unfold N. apply Qle_shift_div_r; [exact PB2|].
    rewrite inject_Z_mult, !two_Z by lia. rewrite <- !two_plus. pose proof (two_le (2 * k) (prec f + prec f + 2 * b) ltac:(lia)). lra. }
  set (m := nearest_root N) in *.
  assert (E1 : inject_Z (m * m + m) == inject_Z m * inject_Z m + inject_Z m) by (rewrite inject_Z_plus, inject_Z_mult; reflexivity).
  assert (E2 : inject_Z (m * m - m) == inject_Z m * inject_Z m - inject_Z m) by (unfold Z.sub; rewrite inject_Z_plus, inject_Z_mult, inject_Z_opp; reflexivity).
  assert (MP : 0 <= inject_Z m) by (change 0 with (inject_Z 0); rewrite <- Zle_Qle; lia).
  split.
  { destruct (Z.eq_dec m (2 ^ prec f)) as [E|E].
    - exists 1%Z, (prec f + b)%Z. split; [|split; [|lia]].
      + rewrite RE, E, two_Z, two_plus by lia. ring.
      + apply Z.pow_gt_1; lia.
    - exists m, b. split; [rewrite RE; reflexivity|]. split; lia. }
  intros s (n & c & ES & NS & CS) S0.
  (** Numbers of the format that are not below the power of two of the root are multiples of its last bit. *)
  assert (MUL : 2 ^ (k - 1) <= s -> exists n', s == inject_Z n' * 2 ^ b).
  { intros L. assert (CB : (b <= c)%Z).
    { destruct B3 as [-> | ->]; [|lia]. assert (T : 2 ^ (k - 1) < 2 ^ (prec f + c)).
      { apply Qle_lt_trans with s; [exact L|]. rewrite ES, two_plus. pose proof (two_Z (prec f) ltac:(lia)) as TZ. rewrite <- TZ. pose proof (two_pos c).
        apply Qmult_lt_compat_r; [assumption|]. rewrite <- Zlt_Qlt. lia. }
      apply two_lt_inv in T. lia. }
    exists (n * 2 ^ (c - b))%Z. rewrite ES, inject_Z_mult, two_Z by lia. rewrite <- Qmult_assoc, <- two_plus. now replace (c - b + b)%Z with c by lia. }
  assert (LOW : b = emin f \/ 2 ^ (k - 1) <= inject_Z m * 2 ^ b).
  { destruct B3 as [E|E]; [right|now left].
    assert (ML : (2 ^ (prec f - 1) <= m)%Z).
    { apply nearest_root_ge; [exact N0|apply Z.pow_nonneg; lia|]. unfold N. apply Qle_shift_div_l; [exact PB2|].
      rewrite inject_Z_mult, !two_Z by lia. rewrite <- !two_plus. replace (prec f - 1 + (prec f - 1) + 2 * b)%Z with (2 * (k - 1))%Z by lia. exact K1. }
    apply Qle_trans with (inject_Z (2 ^ (prec f - 1)) * 2 ^ b).
    - rewrite two_Z, <- two_plus by lia. replace (prec f - 1 + b)%Z with (k - 1)%Z by lia. apply Qle_refl.
    - apply Qmult_le_compat_r; [now rewrite <- Zle_Qle|lra]. }
  assert (ANY : b = emin f -> exists n', s == inject_Z n' * 2 ^ b).
  { intros ->. exists (n * 2 ^ (c - emin f))%Z. rewrite ES, inject_Z_mult, two_Z by lia. rewrite <- Qmult_assoc, <- two_plus. now replace (c - emin f + emin f)%Z with c by lia. }
  assert (UP : forall n', s == inject_Z n' * 2 ^ b -> r < s -> 4 * q <= (r + s) * (r + s)).
  { intros n' E L. rewrite RE, E in L. assert (L' : (m < n')%Z) by (rewrite Zlt_Qlt; nra).
    assert (L2 : inject_Z m + 1 <= inject_Z n') by (change 1 with (inject_Z 1); rewrite <- inject_Z_plus, <- Zle_Qle; lia).
    rewrite RE, E, DD. set (a := inject_Z m) in *. set (d := inject_Z n') in *. set (t := 2 ^ b) in *.
    setoid_replace (4 * (N * (t * t))) with (4 * N * (t * t)) by ring. setoid_replace ((a * t + d * t) * (a * t + d * t)) with ((a + d) * (a + d) * (t * t)) by ring.
    apply Qmult_le_compat_r; [|nra]. nra. }
  assert (DN : forall n', (0 <= n')%Z -> (n' < m)%Z -> s <= inject_Z n' * 2 ^ b -> (r + s) * (r + s) <= 4 * q).
  { intros n' P L E. assert (L2 : inject_Z n' + 1 <= inject_Z m) by (change 1 with (inject_Z 1); rewrite <- inject_Z_plus, <- Zle_Qle; lia).
    assert (N1 : 0 <= inject_Z n') by (change 0 with (inject_Z 0); rewrite <- Zle_Qle; lia). specialize (BL ltac:(lia)).
    rewrite DD. set (a := inject_Z m) in *. set (d := inject_Z n') in *. set (t := 2 ^ b) in *.
    apply Qle_trans with ((a + d) * (a + d) * (t * t)).
    - setoid_replace ((a + d) * (a + d) * (t * t)) with ((a * t + d * t) * (a * t + d * t)) by ring. rewrite RE. assert (0 <= a * t) by nra. nra.
    - setoid_replace (4 * (N * (t * t))) with (4 * N * (t * t)) by ring. apply Qmult_le_compat_r; [|nra]. nra. }
  split; intros L.
  - destruct LOW as [E|E].
    + destruct (ANY E) as [n' En]. now apply (UP n').
    + destruct MUL as [n' En]; [lra|now apply (UP n')].
  - assert (CASE : (exists n', s == inject_Z n' * 2 ^ b) \/ (b <> emin f /\ s < 2 ^ (k - 1))).
    { destruct (Z.eq_dec b (emin f)) as [E|E]; [left; now apply ANY|]. destruct (Qlt_le_dec s (2 ^ (k - 1))) as [H|H]; [now right|left; now apply MUL]. }
    destruct CASE as [[n' En]|[NE H]].
    + apply (DN n').
      * rewrite Zle_Qle. rewrite En in S0. apply Qnot_lt_le. intros H. change (inject_Z 0) with 0 in H. nra.
      * rewrite Zlt_Qlt. rewrite RE, En in L. apply Qnot_le_lt. intros H. nra.
      * rewrite En. apply Qle_refl.
    + destruct LOW as [E|E]; [contradiction|]. assert (BK : b = (k - prec f)%Z) by tauto.
      assert (T : 2 ^ (k - 1) == inject_Z (2 ^ (prec f - 1)) * 2 ^ b).
      { rewrite two_Z, <- two_plus by lia. now replace (prec f - 1 + b)%Z with (k - 1)%Z by lia. }
      assert (P1 : (0 <= 2 ^ (prec f - 1))%Z) by (apply Z.pow_nonneg; lia).
      destruct (Z_lt_le_dec (2 ^ (prec f - 1)) m) as [L1|L1].
      * apply (DN (2 ^ (prec f - 1))%Z P1 L1). lra.
      * assert (RK : r <= 2 ^ (k - 1)).
        { rewrite RE, T. apply Qmult_le_compat_r; [now rewrite <- Zle_Qle|lra]. }
        rewrite two_square in K1. pose proof (two_pos (k - 1)). nra.
Qed.
