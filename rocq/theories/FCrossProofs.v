(** Errors of the points computed in double from integers. *)
From Coq Require Import ZArith QArith Qabs Qround Lia Lqa List Bool.
From Verif Require Import Outcome IntTypes GeoModel FGeoModel FGeoProofs FCrossModel.
Local Open Scope Q_scope.

Local Notation R := (round double).

Ltac qle := apply Qle_bool_iff; vm_compute; reflexivity.

(** ** Relative errors *)
Definition rel (e x y : Q) : Prop := Qabs (x - y) <= e * Qabs y.
(** Slightly above 2^-53 *)
Definition U : Q := 1001 # 9007199254740992000.

Lemma rel_ge e f x y : e <= f -> rel e x y -> rel f x y.
Proof. unfold rel. intros L H. pose proof (Qabs_nonneg y). nra. Qed.
Lemma rel_eq e x y x' y' : x == x' -> y == y' -> rel e x y -> rel e x' y'.
Proof. unfold rel. intros E F H. now rewrite <- E, <- F. Qed.
Lemma rel_low e x y : e <= 1 # 2 -> rel e x y -> Qabs y * (1 # 2) <= Qabs x /\ Qabs x <= 2 * Qabs y.
Proof.
  unfold rel. intros L H. pose proof (Qabs_nonneg y).
  pose proof (Qabs_triangle (x - y) y) as T. pose proof (Qabs_triangle (y - x) x) as T'.
  rewrite (Qabs_Qminus y x) in T'. setoid_replace (x - y + y) with x in T by ring. setoid_replace (y - x + x) with y in T' by ring.
  split; nra.
Qed.
Lemma rel_trans e f x y z : 0 <= e -> rel e x y -> rel f y z -> rel (e + f + e * f) x z.
Proof.
  unfold rel. intros E H K. pose proof (Qabs_triangle (x - y) (y - z)) as T. setoid_replace (x - y + (y - z)) with (x - z) in T by ring.
  pose proof (Qabs_triangle (y - z) z) as T'. setoid_replace (y - z + z) with y in T' by ring. nra.
Qed.
Lemma rel_mul e f x y x' y' : 0 <= e -> rel e x y -> rel f x' y' -> rel (e + f + e * f) (x * x') (y * y').
Proof.
  unfold rel. intros E H K. setoid_replace (x * x' - y * y') with ((x - y) * x' + y * (x' - y')) by ring.
  apply Qle_trans with (1 := Qabs_triangle _ _). rewrite !Qabs_Qmult.
  pose proof (Qabs_triangle (x' - y') y') as T. setoid_replace (x' - y' + y') with x' in T by ring.
  pose proof (Qabs_nonneg y). pose proof (Qabs_nonneg y'). pose proof (Qabs_nonneg x'). pose proof (Qabs_nonneg (x - y)).
  assert (A : Qabs (x - y) * Qabs x' <= e * Qabs y * Qabs x') by (apply Qmult_le_compat_r; assumption).
  assert (B : e * Qabs y * Qabs x' <= e * Qabs y * (f * Qabs y' + Qabs y')).
  { rewrite !(Qmult_comm (e * Qabs y)). apply Qmult_le_compat_r; [lra | nra]. }
  assert (C : Qabs y * Qabs (x' - y') <= Qabs y * (f * Qabs y')).
  { rewrite !(Qmult_comm (Qabs y)). apply Qmult_le_compat_r; [lra | assumption]. }
  lra.
Qed.
Lemma rel_inv x y : rel U x y -> ~ y == 0 -> ~ x == 0 /\ rel ((11 # 10) * U) (/ x) (/ y).
Proof.
  intros H N. assert (P : 0 < Qabs y).
  { apply Qnot_le_lt; intro X; apply N; apply Qabs_Qle_condition in X; lra. }
  pose proof (rel_low U x y ltac:(qle) H) as [L _].
  assert (X : ~ x == 0). { intro E. rewrite E in L. change (Qabs 0) with 0 in L. lra. }
  split; [exact X|]. unfold rel in *. rewrite Qabs_Qinv.
  assert (PX : 0 < Qabs x) by lra.
  assert (PL : (10 # 11) * Qabs y <= Qabs x).
  { pose proof (Qabs_triangle (y - x) x) as T'. rewrite (Qabs_Qminus y x) in T'. setoid_replace (y - x + x) with y in T' by ring.
    assert (U * Qabs y <= (1 # 11) * Qabs y) by (apply Qmult_le_compat_r; [discriminate | lra]). lra. }
  setoid_replace (/ x - / y) with ((y - x) * / (x * y)) by (field; auto).
  rewrite Qabs_Qmult, Qabs_Qinv, Qabs_Qmult, (Qabs_Qminus y x).
  setoid_replace (/ (Qabs x * Qabs y)) with (/ Qabs x * / Qabs y) by (field; split; lra).
  assert (I : / Qabs x <= (11 # 10) * / Qabs y).
  { apply Qmult_le_l with (Qabs x * Qabs y); [nra|].
    setoid_replace (Qabs x * Qabs y * / Qabs x) with (Qabs y) by (field; lra).
    setoid_replace (Qabs x * Qabs y * ((11 # 10) * / Qabs y)) with ((11 # 10) * Qabs x) by (field; lra). lra. }
  assert (IP : 0 < / Qabs y) by (apply Qinv_lt_0_compat; exact P).
  assert (IX : 0 < / Qabs x) by (apply Qinv_lt_0_compat; exact PX).
  apply Qle_trans with (U * Qabs y * (/ Qabs x * / Qabs y)).
  - apply Qmult_le_compat_r; [exact H | nra].
  - setoid_replace (U * Qabs y * (/ Qabs x * / Qabs y)) with (U * / Qabs x) by (field; split; lra).
    setoid_replace ((11 # 10) * U * / Qabs y) with (U * ((11 # 10) * / Qabs y)) by ring.
    rewrite !(Qmult_comm U). apply Qmult_le_compat_r; [exact I | discriminate].
Qed.

(** ** Rounding *)
Lemma p_double : (1 <= prec double)%Z. Proof. discriminate. Qed.
Lemma R_rel q : q == 0 \/ 2 ^ (-800) <= Qabs q -> rel U (R q) q.
Proof.
  intros [E|H].
  - unfold rel. rewrite (round_zero double q E), E. discriminate.
  - pose proof (round_error double q) as X. unfold rel. apply Qle_trans with (1 := X).
    change (2 ^ (- prec double)) with (1 # 9007199254740992).
    assert (T : 2 ^ emin double * (1 # 2) <= Qabs q * (1 # 9007199254740992000)).
    { apply Qle_trans with (2 ^ (-800) * (1 # 9007199254740992000)); [qle|].
      apply Qmult_le_compat_r; [exact H | discriminate]. }
    unfold U. lra.
Qed.
Lemma fin q : Qabs q <= 2 ^ 800 -> exists r, to_num double q = Fin r /\ r == R q.
Proof.
  intros H. eexists. split; [|apply Qred_correct]. apply to_num_finite; [exact p_double | discriminate |].
  apply Qle_trans with (1 := H). apply two_le. discriminate.
Qed.

Definition med (z : Z) : Prop := (Z.abs z <= 2 ^ 130)%Z.
Definition small (z : Z) : Prop := (Z.abs z <= 2 ^ 53)%Z.
Lemma small_med z : small z -> med z.
Proof. unfold small, med. intros H. apply Z.le_trans with (1 := H). discriminate. Qed.
Lemma med_Q z : med z -> Qabs (inject_Z z) <= 2 ^ 130.
Proof.
  intros S. change (Qabs (inject_Z z)) with (inject_Z (Z.abs z)). rewrite <- two_Z by discriminate. rewrite <- Zle_Qle. exact S.
Qed.
Lemma nonzero_Q z : z <> 0%Z -> 1 <= Qabs (inject_Z z).
Proof. intros N. change (Qabs (inject_Z z)) with (inject_Z (Z.abs z)). change 1 with (inject_Z 1). rewrite <- Zle_Qle. lia. Qed.

Lemma of_int_rel z : med z -> exists q, of_int z = Fin q /\ q == R (inject_Z z) /\ rel U q (inject_Z z).
Proof.
  intros S. destruct (fin (inject_Z z)) as (r & E & F).
  { apply Qle_trans with (1 := med_Q z S). apply two_le. discriminate. }
  exists r. split; [exact E|]. split; [exact F|]. apply rel_eq with (R (inject_Z z)) (inject_Z z); [now symmetry | reflexivity|].
  apply R_rel. destruct (Z.eq_dec z 0) as [->|N]; [now left|right].
  apply Qle_trans with (2 := nonzero_Q z N). apply Qle_trans with (2 ^ 0); [apply two_le; discriminate | apply Qle_refl].
Qed.

Lemma Qabs_zero q : Qabs q == 0 <-> q == 0.
Proof. split; intros E; [|now rewrite E]. assert (X : Qabs q <= 0) by lra. apply Qabs_Qle_condition in X. lra. Qed.

(** The ratio *)
Lemma ratio_size n d : med n -> med d -> d <> 0%Z -> Qabs (inject_Z n / inject_Z d) <= 2 ^ 130 /\
  (n <> 0%Z -> 2 ^ (-130) <= Qabs (inject_Z n / inject_Z d)).
Proof.
  intros N D D0. pose proof (med_Q n N) as Bn. pose proof (nonzero_Q d D0) as Bd. pose proof (med_Q d D) as Bd'.
  unfold Qdiv. rewrite Qabs_Qmult, Qabs_Qinv.
  assert (I : 2 ^ (-130) <= / Qabs (inject_Z d)).
  { apply Qmult_le_l with (Qabs (inject_Z d)); [lra|]. rewrite Qmult_inv_r by lra.
    apply Qle_trans with (2 ^ 130 * 2 ^ (-130)); [apply Qmult_le_compat_r; [exact Bd' | discriminate] | qle]. }
  assert (J : / Qabs (inject_Z d) <= 1).
  { apply Qmult_le_l with (Qabs (inject_Z d)); [lra|]. rewrite Qmult_inv_r by lra. lra. }
  assert (0 < 2 ^ (-130)) by reflexivity. pose proof (Qabs_nonneg (inject_Z n)). split; [nra|].
  intros N0. pose proof (nonzero_Q n N0). nra.
Qed.
Lemma ratio_zero d : inject_Z 0 / inject_Z d == 0. Proof. unfold Qdiv. change (inject_Z 0) with 0. ring. Qed.
Lemma rel_zero e x y : y == 0 -> rel e x y -> x == 0.
Proof.
  unfold rel. intros E H. rewrite E in H. change (Qabs 0) with 0 in H. setoid_replace (x - 0) with x in H by ring.
  apply Qabs_zero. pose proof (Qabs_nonneg x). lra.
Qed.
(** A rounded result, where nothing underflows *)
Lemma to_num_rel q e y : rel e q y -> 0 <= e -> e <= 1 # 4 -> y == 0 \/ 2 ^ (-700) <= Qabs y -> Qabs y <= 2 ^ 700 ->
  exists r, to_num double q = Fin r /\ rel (U + e + U * e) r y.
Proof.
  intros H E0 E L B. destruct (rel_low e q y ltac:(lra) H) as [L1 L2].
  destruct (fin q) as (r & Er & Fr).
  { apply Qle_trans with (2 * 2 ^ 700); [lra | qle]. }
  exists r. split; [exact Er|]. apply rel_trans with q; [discriminate | | exact H].
  apply rel_eq with (R q) q; [now symmetry | reflexivity |]. apply R_rel.
  destruct L as [L|L]; [left; now apply rel_zero with e y | right].
  apply Qle_trans with (2 ^ (-700) * (1 # 2)); [qle | lra].
Qed.
Lemma mratio_rel n d : med n -> med d -> d <> 0%Z ->
  exists s, mratio n d = Fin s /\ rel ((32 # 10) * U) s (inject_Z n / inject_Z d).
Proof.
  intros N D D0. destruct (of_int_rel n N) as (n' & En & _ & Rn). destruct (of_int_rel d D) as (d' & Ed & _ & Rd).
  assert (NZ : ~ inject_Z d == 0) by (intro X; apply D0; apply (proj1 (inject_Z_injective d 0)); exact X).
  destruct (rel_inv d' (inject_Z d) Rd NZ) as [NZ' RI]. destruct (ratio_size n d N D D0) as [S1 S2].
  unfold mratio. rewrite En, Ed. unfold fdiv.
  assert (RD : rel ((21001 # 10000) * U) (n' / d') (inject_Z n / inject_Z d)).
  { apply rel_ge with (U + (11 # 10) * U + U * ((11 # 10) * U)); [qle|]. apply rel_mul; [discriminate | assumption | assumption]. }
  destruct (to_num_rel (n' / d') _ _ RD ltac:(qle) ltac:(qle)) as (s & Es & Rs).
  { destruct (Z.eq_dec n 0) as [->|N0]; [left; apply ratio_zero | right]. apply Qle_trans with (2 := S2 N0). apply two_le. discriminate. }
  { apply Qle_trans with (1 := S1). apply two_le. discriminate. }
  exists s. split; [|apply rel_ge with (2 := Rs); qle].
  destruct (Qcompare d' 0) eqn:C; [apply Qeq_alt in C; contradiction | exact Es | exact Es].
Qed.

(** A coordinate of the point *)
Lemma coord_rel n d b v : med n -> med d -> d <> 0%Z -> med b -> med v -> exists x,
  fadd double (of_int b) (fmul double (mratio n d) (of_int v)) = Fin x /\
  Qabs (x - (inject_Z b + inject_Z n / inject_Z d * inject_Z v)) <=
  2 ^ (-50) * (Qabs (inject_Z b) + Qabs (inject_Z n / inject_Z d * inject_Z v)).
Proof.
  intros N D D0 B V. destruct (mratio_rel n d N D D0) as (s' & Es & Rs). destruct (ratio_size n d N D D0) as [S1 S2].
  destruct (of_int_rel b B) as (b' & Eb & _ & Rb). destruct (of_int_rel v V) as (v' & Ev & _ & Rv).
  set (s := inject_Z n / inject_Z d) in *.
  assert (Rm : rel ((42001 # 10000) * U) (s' * v') (s * inject_Z v)).
  { apply rel_ge with ((32 # 10) * U + U + (32 # 10) * U * U); [qle|]. apply rel_mul; [discriminate | assumption | assumption]. }
  assert (M1 : Qabs (s * inject_Z v) <= 2 ^ 260).
  { rewrite Qabs_Qmult. apply Qle_trans with (2 ^ 130 * 2 ^ 130); [|qle].
    pose proof (med_Q v V). pose proof (Qabs_nonneg s). pose proof (Qabs_nonneg (inject_Z v)). nra. }
  assert (M2 : s * inject_Z v == 0 \/ 2 ^ (-130) <= Qabs (s * inject_Z v)).
  { destruct (Z.eq_dec n 0) as [E|N0]; [left; unfold s; rewrite E, ratio_zero; ring|].
    destruct (Z.eq_dec v 0) as [E|V0]; [left; rewrite E; change (inject_Z 0) with 0; ring|right].
    rewrite Qabs_Qmult. pose proof (nonzero_Q v V0). specialize (S2 N0). assert (0 < 2 ^ (-130)) by reflexivity. nra. }
  destruct (to_num_rel (s' * v') _ _ Rm ltac:(qle) ltac:(qle)) as (m & Em & RM).
  { destruct M2 as [M2|M2]; [now left | right]. apply Qle_trans with (2 := M2). apply two_le. discriminate. }
  { apply Qle_trans with (1 := M1). apply two_le. discriminate. }
  apply rel_ge with (f := (53 # 10) * U) in RM; [|qle].
  set (M := s * inject_Z v) in *. set (b0 := inject_Z b) in *.
  rewrite Eb, Es, Ev. unfold fmul, fadd. rewrite Em.
  destruct (rel_low U _ _ ltac:(qle) Rb) as [_ Lb]. destruct (rel_low ((53 # 10) * U) _ _ ltac:(qle) RM) as [_ Lm].
  assert (Bb : Qabs b0 <= 2 ^ 130) by apply med_Q, B.
  pose proof (Qabs_triangle b' m) as T. 
  destruct (fin (b' + m)) as (x & Ex & Fx).
  { apply Qle_trans with (2 * 2 ^ 130 + 2 * 2 ^ 260); [lra | qle]. }
  exists x. split; [exact Ex|]. rewrite Fx.
  assert (Er : Qabs (R (b' + m) - (b' + m)) <= U * (Qabs b' + Qabs m)).
  { assert (X : b' + m == 0 \/ (1 # 4) * 2 ^ (-130) <= Qabs b0 + Qabs M).
    { destruct (Z.eq_dec b 0) as [E|N0].
      - destruct M2 as [M2|M2]; [left|right; pose proof (Qabs_nonneg b0); assert (0 < 2 ^ (-130)) by reflexivity; lra].
        rewrite (rel_zero _ _ _ M2 RM). assert (Y : b0 == 0) by (unfold b0; rewrite E; reflexivity). rewrite (rel_zero _ _ _ Y Rb). ring.
      - right. pose proof (nonzero_Q b N0) as Y. fold b0 in Y. pose proof (Qabs_nonneg M).
        assert ((1 # 4) * 2 ^ (-130) <= 1) by qle. lra. }
    destruct X as [X|X].
    - rewrite (round_zero double _ X), X. change (Qabs (0 - 0)) with 0. pose proof (Qabs_nonneg b'). pose proof (Qabs_nonneg m).
      assert (0 <= U) by discriminate. nra.
    - apply Qle_trans with (1 := round_error double (b' + m)).
      destruct (rel_low U _ _ ltac:(qle) Rb) as [Lb' _]. destruct (rel_low ((53 # 10) * U) _ _ ltac:(qle) RM) as [Lm' _].
      change (2 ^ (- prec double)) with (1 # 9007199254740992).
      assert (Y : 2 ^ emin double * (1 # 2) <= (1 # 9007199254740992000) * ((1 # 8) * 2 ^ (-130))) by qle.
      unfold U. lra. }
  assert (Tm : Qabs (R (b' + m) - (b0 + M)) <= Qabs (R (b' + m) - (b' + m)) + (Qabs (b' - b0) + Qabs (m - M))).
  { setoid_replace (R (b' + m) - (b0 + M)) with (R (b' + m) - (b' + m) + (b' - b0 + (m - M))) by ring.
    apply Qle_trans with (1 := Qabs_triangle _ _). apply Qplus_le_r. apply Qabs_triangle. }
  assert (Tb : Qabs b' <= Qabs (b' - b0) + Qabs b0).
  { setoid_replace b' with (b' - b0 + b0) at 1 by ring. apply Qabs_triangle. }
  assert (TM : Qabs m <= Qabs (m - M) + Qabs M).
  { setoid_replace m with (m - M + M) at 1 by ring. apply Qabs_triangle. }
  unfold rel in Rb, RM. change (2 ^ (-50)) with (1 # 1125899906842624).
  pose proof (Qabs_nonneg b0). pose proof (Qabs_nonneg M). unfold U in *. lra.
Qed.

(** ** Exact operations *)
Lemma small_rep z : small z -> representable double (inject_Z z).
Proof.
  intros S. apply representable_eq with (inject_Z z * 2 ^ 0); [change (2 ^ 0) with 1; ring|].
  apply representable_int; [exact p_double | exact S | discriminate].
Qed.
Lemma R_small z : small z -> R (inject_Z z) == inject_Z z.
Proof. intros S. apply round_exact; [exact p_double|]. now apply small_rep. Qed.
Lemma of_int_small z : small z -> exists q, of_int z = Fin q /\ q == inject_Z z.
Proof.
  intros S. destruct (of_int_rel z (small_med z S)) as (q & E & F & _). exists q. split; [exact E|]. now rewrite F, R_small.
Qed.

(** A coordinate between the ends *)
Lemma mratio_unit n d : med n -> med d -> d <> 0%Z -> 0 <= inject_Z n / inject_Z d <= 1 ->
  exists s, mratio n d = Fin s /\ 0 <= s <= 1.
Proof.
  intros N D D0 [S1 S2]. destruct (of_int_rel n N) as (n' & En & Fn & Rn). destruct (of_int_rel d D) as (d' & Ed & Fd & Rd).
  assert (NZ : ~ inject_Z d == 0) by (intro X; apply D0; apply (proj1 (inject_Z_injective d 0)); exact X).
  destruct (rel_inv d' (inject_Z d) Rd NZ) as [NZ' _].
  assert (Q : 0 <= n' / d' <= 1).
  { destruct (Z.lt_ge_cases 0 d) as [P|P].
    - assert (PQ : 0 < inject_Z d) by (change 0 with (inject_Z 0); now rewrite <- Zlt_Qlt).
      assert (A : 0 <= inject_Z n <= inject_Z d).
      { split; [|]. setoid_replace (inject_Z n) with (inject_Z n / inject_Z d * inject_Z d) by (field; exact NZ). nra.
        setoid_replace (inject_Z n) with (inject_Z n / inject_Z d * inject_Z d) by (field; exact NZ). nra. }
      pose proof (round_mono double p_double _ _ (proj1 A)) as M1. pose proof (round_mono double p_double _ _ (proj2 A)) as M2.
      change (R 0) with 0 in M1. rewrite <- Fn in M1, M2. rewrite <- Fd in M2.
      assert (P' : 0 < d') by (destruct (Qlt_le_dec 0 d'); [assumption | exfalso; apply NZ'; lra]).
      split; [apply Qle_shift_div_l | apply Qle_shift_div_r]; lra.
    - assert (PQ : inject_Z d < 0) by (change 0 with (inject_Z 0); rewrite <- Zlt_Qlt; lia).
      assert (A : inject_Z d <= inject_Z n <= 0).
      { split; [|]. setoid_replace (inject_Z n) with (inject_Z n / inject_Z d * inject_Z d) by (field; exact NZ). nra.
        setoid_replace (inject_Z n) with (inject_Z n / inject_Z d * inject_Z d) by (field; exact NZ). nra. }
      pose proof (round_mono double p_double _ _ (proj1 A)) as M1. pose proof (round_mono double p_double _ _ (proj2 A)) as M2.
      change (R 0) with 0 in M2. rewrite <- Fn in M1, M2. rewrite <- Fd in M1.
      assert (P' : d' < 0) by (destruct (Qlt_le_dec d' 0); [assumption | exfalso; apply NZ'; lra]).
      setoid_replace (n' / d') with (- n' / - d') by (field; lra).
      split; [apply Qle_shift_div_l | apply Qle_shift_div_r]; lra. }
  destruct (fin (n' / d')) as (s & Es & Fs).
  { rewrite Qabs_pos by apply Q. apply Qle_trans with (1 := proj2 Q). qle. }
  exists s. split.
  - unfold mratio. rewrite En, Ed. unfold fdiv. destruct (Qcompare d' 0) eqn:C; [apply Qeq_alt in C; contradiction | exact Es | exact Es].
  - rewrite Fs. pose proof (round_mono double p_double _ _ (proj1 Q)) as M1. pose proof (round_mono double p_double _ _ (proj2 Q)) as M2.
    change (R 0) with 0 in M1. rewrite (R_small 1 ltac:(discriminate)) in M2. split; assumption.
Qed.

Lemma coord_between n d b v : med n -> med d -> d <> 0%Z -> 0 <= inject_Z n / inject_Z d <= 1 ->
  small b -> small v -> small (b + v) -> exists x,
  fadd double (of_int b) (fmul double (mratio n d) (of_int v)) = Fin x /\
  inject_Z (Z.min b (b + v)) <= x <= inject_Z (Z.max b (b + v)).
Proof.
  intros N D D0 S B V BV. destruct (mratio_unit n d N D D0 S) as (s & Es & S1 & S2).
  destruct (of_int_small b B) as (b' & Eb & Fb). destruct (of_int_small v V) as (v' & Ev & Fv).
  assert (A : inject_Z (Z.min 0 v) <= s * v' <= inject_Z (Z.max 0 v)).
  { rewrite Fv. destruct (Z.le_ge_cases 0 v) as [L|L].
    - rewrite Z.min_l, Z.max_r by lia. rewrite Zle_Qle in L. change (inject_Z 0) with 0 in *. split; nra.
    - rewrite Z.min_r, Z.max_l by lia. rewrite Zle_Qle in L. change (inject_Z 0) with 0 in *. split; nra. }
  assert (Sm : small (Z.min 0 v) /\ small (Z.max 0 v)) by (unfold small in *; lia).
  assert (Sb : small (Z.min b (b + v)) /\ small (Z.max b (b + v))) by (unfold small in *; lia).
  assert (bd : forall z, small z -> - 2 ^ 53 <= inject_Z z <= 2 ^ 53).
  { intros z Z. apply Qabs_Qle_condition. change (Qabs (inject_Z z)) with (inject_Z (Z.abs z)). rewrite <- two_Z by discriminate. rewrite <- Zle_Qle. exact Z. }
  pose proof (bd _ (proj1 Sm)). pose proof (bd _ (proj2 Sm)). pose proof (bd _ (proj1 Sb)). pose proof (bd _ (proj2 Sb)).
  destruct (fin (s * v')) as (m & Em & Fm).
  { apply Qabs_Qle_condition. assert (2 ^ 53 <= 2 ^ 800) by (apply two_le; discriminate). split; lra. }
  pose proof (round_mono double p_double _ _ (proj1 A)) as M1. pose proof (round_mono double p_double _ _ (proj2 A)) as M2.
  rewrite R_small in M1, M2 by apply Sm. rewrite <- Fm in M1, M2.
  assert (C : inject_Z (Z.min b (b + v)) <= b' + m <= inject_Z (Z.max b (b + v))).
  { replace (Z.min b (b + v)) with (b + Z.min 0 v)%Z by lia. replace (Z.max b (b + v)) with (b + Z.max 0 v)%Z by lia.
    rewrite !inject_Z_plus, Fb. split; lra. }
  destruct (fin (b' + m)) as (x & Ex & Fx).
  { apply Qabs_Qle_condition. assert (2 ^ 53 <= 2 ^ 800) by (apply two_le; discriminate). split; lra. }
  exists x. split; [rewrite Eb, Es, Ev; unfold fmul, fadd; now rewrite Em|].
  pose proof (round_mono double p_double _ _ (proj1 C)) as C1. pose proof (round_mono double p_double _ _ (proj2 C)) as C2.
  rewrite R_small in C1, C2 by apply Sb. rewrite Fx. split; assumption.
Qed.

(** An exact coordinate *)
Lemma to_num_dyadic q m k : q == inject_Z m * 2 ^ (- k) -> small m -> (0 <= k <= 1000)%Z ->
  exists r, to_num double q = Fin r /\ r == q.
Proof.
  intros E M K. apply to_num_exact; [exact p_double | |].
  - apply representable_eq with (inject_Z m * 2 ^ (- k)); [now symmetry|]. apply representable_int; [exact p_double | exact M | cbn; lia].
  - rewrite E, Qabs_Qmult. apply Qle_lt_trans with (2 ^ 53 * 1); [|reflexivity].
    assert (A : Qabs (inject_Z m) <= 2 ^ 53) by (change (Qabs (inject_Z m)) with (inject_Z (Z.abs m)); rewrite <- two_Z by discriminate; rewrite <- Zle_Qle; exact M).
    assert (C : Qabs (2 ^ (- k)) <= 1).
    { rewrite Qabs_pos by (pose proof (two_pos (- k)); lra). change 1 with (2 ^ 0). apply two_le. lia. }
    pose proof (Qabs_nonneg (inject_Z m)). pose proof (Qabs_nonneg (2 ^ (- k))). nra.
Qed.
Lemma coord_exact n d b v m k : small n -> small d -> d <> 0%Z -> inject_Z n / inject_Z d == inject_Z m * 2 ^ (- k) ->
  (0 <= k <= 1000)%Z -> small m -> small b -> small v -> small (m * v) -> small (b * 2 ^ k + m * v) -> exists x,
  fadd double (of_int b) (fmul double (mratio n d) (of_int v)) = Fin x /\
  x == inject_Z b + inject_Z n / inject_Z d * inject_Z v.
Proof.
  intros N D D0 E K M B V MV BV.
  destruct (of_int_small b B) as (b' & Eb & Fb). destruct (of_int_small v V) as (v' & Ev & Fv).
  destruct (of_int_small n N) as (n' & En & Fn). destruct (of_int_small d D) as (d' & Ed & Fd).
  assert (NZ : ~ inject_Z d == 0) by (intro X; apply D0; apply (proj1 (inject_Z_injective d 0)); exact X).
  destruct (to_num_dyadic (n' / d') m k) as (s & Es & Fs); [now rewrite Fn, Fd | assumption | assumption |].
  assert (E1 : s * v' == inject_Z (m * v) * 2 ^ (- k)) by (rewrite Fs, Fn, Fd, E, Fv, inject_Z_mult; ring).
  destruct (to_num_dyadic (s * v') (m * v) k E1) as (p & Ep & Fp); [assumption | assumption |].
  assert (E2 : b' + p == inject_Z (b * 2 ^ k + m * v) * 2 ^ (- k)).
  { rewrite Fp, E1, Fb, inject_Z_plus, (inject_Z_mult b), two_Z by lia.
    assert (X : 2 ^ k * 2 ^ (- k) == 1) by (rewrite <- two_plus; now replace (k + - k)%Z with 0%Z by lia).
    setoid_replace ((inject_Z b * 2 ^ k + inject_Z (m * v)) * 2 ^ (- k)) with (inject_Z b * (2 ^ k * 2 ^ (- k)) + inject_Z (m * v) * 2 ^ (- k)) by ring.
    rewrite X. ring. }
  destruct (to_num_dyadic (b' + p) _ k E2) as (x & Ex & Fx); [assumption | assumption |].
  exists x. split.
  - rewrite Eb, Ev. unfold mratio. rewrite En, Ed. unfold fdiv.
    destruct (Qcompare d' 0) eqn:C; [apply Qeq_alt in C; rewrite Fd in C; contradiction | |]; rewrite Es; unfold fmul, fadd; now rewrite Ep.
  - rewrite Fx, Fp, Fs, Fn, Fd, Fv, Fb. reflexivity.
Qed.
