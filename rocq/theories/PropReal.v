(** C30: floating point numbers as text. *)
From Coq Require Import ZArith List Bool Lia QArith Qround Qabs Lqa.
From Verif Require Import Outcome IntTextModel IntTextProofs RealModel RealProofs.
Import ListNotations.
Local Open Scope Z_scope.

(** Exact arithmetic. *)
Definition exact (q : Q) : Q := q.

Lemma pow_Q_pos b p : 2 <= b -> (0 < inject_Z (b ^ Z.of_nat p))%Q.
Proof. intro H. change 0%Q with (inject_Z 0). rewrite <- Zlt_Qlt. apply Z.pow_pos_nonneg; lia. Qed.

(** ** The text is the nearest number with [p] digits after the point, halves up *)
(** [shows_number f showpoint p neg N text]: the text is the sign, the digits of the
    integer part without leading zeros, the point and [p] further digits; all the
    digits together evaluate to [N], which is the number multiplied by [b^p]. *)
Theorem C30_nearest : forall f showpoint p neg x,
  2 <= f_base f <= 36 -> plain f -> f_base f ^ Z.of_nat p < 2 ^ 64 ->
  let bp := inject_Z (f_base f ^ Z.of_nat p) in
  (0 <= x)%Q -> (x * bp + (1 # 2) < inject_Z (2 ^ 64) * bp)%Q ->
  sign_text f neg = [] \/ (f_base f <> 2 /\ f_base f <> 10) \/ (x * bp + (1 # 2) < inject_Z (2 ^ 63) * bp)%Q ->
  exists text N,
    real_encode exact f showpoint p neg (RFin x) = Ok text
    /\ shows_number f showpoint p neg N text
    /\ (- (1 # 2) < inject_Z N - x * bp <= 1 # 2)%Q.
Proof.
  intros f showpoint p neg x B P Lt bp Hx HN HS.
  set (z := f_base f ^ Z.of_nat p) in *.
  assert (Bz : 0 < z) by (apply Z.pow_pos_nonneg; lia).
  assert (Bq : (0 < bp)%Q) by (apply pow_Q_pos; lia).
  set (I := Qfloor x).
  set (t := ((x - inject_Z I) * bp + (1 # 2))%Q).
  destruct (floor_bounds x) as [X1 X2]. fold I in X1, X2.
  assert (I0 : 0 <= I) by (change 0 with (Qfloor 0); apply Qfloor_resp_le; exact Hx).
  assert (T0 : (0 <= t)%Q).
  { unfold t. assert (0 <= (x - inject_Z I) * bp)%Q by (apply Qmult_le_0_compat; lra). lra. }
  assert (T1 : (t < bp + (1 # 2))%Q).
  { unfold t. assert ((x - inject_Z I) * bp < 1 * bp)%Q by (apply Qmult_lt_compat_r; lra). lra. }
  assert (F0 : 0 <= Qfloor t) by (change 0 with (Qfloor 0); apply Qfloor_resp_le; exact T0).
  destruct (floor_bounds t) as [Tf1 Tf2].
  assert (Fz : Qfloor t <= z).
  { assert (inject_Z (Qfloor t) < inject_Z (z + 1))%Q by (rewrite inject_Z_plus; change (inject_Z 1) with 1%Q; fold bp; lra).
    rewrite <- Zlt_Qlt in H. lia. }
  set (N := total z I (Qfloor t)).
  assert (NB : (inject_Z N <= x * bp + (1 # 2))%Q /\ (x * bp - (1 # 2) < inject_Z N)%Q).
  { unfold N, total. destruct (Z.leb_spec z (Qfloor t)).
    - assert (EE : Qfloor t = z) by lia. rewrite EE in Tf1, Tf2. fold bp in Tf1, Tf2.
      replace ((I + 1) * z) with (I * z + z) by lia. rewrite inject_Z_plus, inject_Z_mult. fold bp.
      assert (t == x * bp - inject_Z I * bp + (1 # 2))%Q by (unfold t; ring). split; lra.
    - rewrite inject_Z_plus, inject_Z_mult. fold bp.
      assert (t == x * bp - inject_Z I * bp + (1 # 2))%Q by (unfold t; ring). split; lra. }
  assert (Bd : forall m, (x * bp + (1 # 2) < inject_Z m * bp)%Q -> N < m * z).
  { intros m Hm. rewrite Zlt_Qlt, inject_Z_mult. fold bp. lra. }
  destruct (real_encode_spec exact f showpoint p neg x) as (text & E & S); auto.
  - fold z. change (exact _) with t. lia.
  - destruct HS as [H|[H|H]]; [auto|auto|]. right. right. apply Bd. exact H.
  - exists text, N. split; [exact E|]. split; [exact S|]. lra.
Qed.
Print Assumptions C30_nearest.

(** ** Floating point arithmetic *)
(** If each operation has relative error at most [u] the value shown differs from
    the number by at most half a unit of the last digit and [4 u (b^p + 1)] units. *)
Theorem C30_floating : forall rnd u f showpoint p neg x,
  (forall q, Qabs (rnd q - q) <= u * Qabs q)%Q -> (0 <= u <= 1 # 4)%Q ->
  2 <= f_base f <= 36 -> plain f ->
  let bp := inject_Z (f_base f ^ Z.of_nat p) in
  (bp + 1 + 4 * u * (bp + 1) <= inject_Z (2 ^ 64))%Q ->
  (0 <= x)%Q -> (x < inject_Z (2 ^ 64) - 1)%Q ->
  sign_text f neg = [] \/ (f_base f <> 2 /\ f_base f <> 10) \/ (x < inject_Z (2 ^ 63) - 1)%Q ->
  exists text N,
    real_encode rnd f showpoint p neg (RFin x) = Ok text
    /\ shows_number f showpoint p neg N text
    /\ (Qabs (inject_Z N - x * bp) <= (1 # 2) + 4 * u * (bp + 1))%Q.
Proof.
  intros rnd u f showpoint p neg x R U B P bp Lt Hx HN HS.
  set (z := f_base f ^ Z.of_nat p) in *.
  assert (Bz : 0 < z) by (apply Z.pow_pos_nonneg; lia).
  assert (Bq : (0 < bp)%Q) by (apply pow_Q_pos; lia).
  assert (B1 : (1 <= bp)%Q) by (unfold bp; change 1%Q with (inject_Z 1); rewrite <- Zle_Qle; lia).
  set (I := Qfloor x).
  destruct (floor_bounds x) as [X1 X2]. fold I in X1, X2.
  assert (I0 : 0 <= I) by (change 0 with (Qfloor 0); apply Qfloor_resp_le; exact Hx).
  set (fr := (x - inject_Z I)%Q). assert (Fr : (0 <= fr /\ fr < 1)%Q) by (unfold fr; lra).
  (* bounds of the three roundings *)
  assert (R' : forall q, (0 <= q)%Q -> (q - u * q <= rnd q /\ rnd q <= q + u * q)%Q).
  { intros q Hq. specialize (R q). rewrite (Qabs_pos q Hq) in R. apply Qabs_Qle_condition in R. lra. }
  destruct (R' bp ltac:(lra)) as [A1 A2].
  assert (UB : (0 <= u * bp)%Q) by (apply Qmult_le_0_compat; lra).
  assert (UB4 : (u * bp <= (1 # 4) * bp)%Q) by (apply Qmult_le_compat_r; lra).
  set (rb := rnd bp) in *.
  assert (Rb : (0 <= rb)%Q) by lra.
  set (m := (fr * rb)%Q).
  assert (M0 : (0 <= m)%Q) by (apply Qmult_le_0_compat; lra).
  assert (M1 : (fr * bp - u * bp <= m /\ m <= fr * bp + u * bp)%Q).
  { unfold m. assert (G1 : (0 <= fr * (rb - (bp - u * bp)))%Q) by (apply Qmult_le_0_compat; lra).
    assert (G2 : (0 <= fr * (bp + u * bp - rb))%Q) by (apply Qmult_le_0_compat; lra).
    assert (G3 : (0 <= (1 - fr) * (u * bp))%Q) by (apply Qmult_le_0_compat; lra).
    assert (K1 : (fr * (rb - (bp - u * bp)) == fr * rb - fr * bp + fr * (u * bp))%Q) by ring.
    assert (K2 : (fr * (bp + u * bp - rb) == fr * bp + fr * (u * bp) - fr * rb)%Q) by ring.
    assert (K3 : ((1 - fr) * (u * bp) == u * bp - fr * (u * bp))%Q) by ring.
    rewrite K1 in G1. rewrite K2 in G2. rewrite K3 in G3. split; lra. }
  assert (FB : (fr * bp <= bp)%Q).
  { assert (G : (0 <= (1 - fr) * bp)%Q) by (apply Qmult_le_0_compat; lra).
    assert (K : ((1 - fr) * bp == bp - fr * bp)%Q) by ring. rewrite K in G. lra. }
  assert (FB0 : (0 <= fr * bp)%Q) by (apply Qmult_le_0_compat; lra).
  destruct (R' m M0) as [A3 A4].
  set (s := rnd m) in *.
  assert (UM : (u * m <= u * bp + (1 # 4) * (u * bp))%Q).
  { setoid_replace (u * bp + (1 # 4) * (u * bp))%Q with (u * (bp + (1 # 4) * bp))%Q by ring.
    rewrite (Qmult_comm u m), (Qmult_comm u). apply Qmult_le_compat_r; lra. }
  assert (UM0 : (0 <= u * m)%Q) by (apply Qmult_le_0_compat; lra).
  assert (UM1 : (u * m <= m)%Q).
  { assert (G : (0 <= (1 - u) * m)%Q) by (apply Qmult_le_0_compat; lra).
    assert (K : ((1 - u) * m == m - u * m)%Q) by ring. rewrite K in G. lra. }
  assert (S0 : (0 <= s + (1 # 2))%Q) by lra.
  destruct (R' _ S0) as [A5 A6].
  set (t := rnd (s + (1 # 2))%Q) in *.
  (* s <= bp + u bp + 5/4 u bp *)
  assert (US : (u * (s + (1 # 2)) <= (1 + (5 # 8)) * (u * bp) + (1 # 2) * u)%Q).
  { assert (G : (0 <= u * ((bp + u * bp + (5 # 4) * (u * bp)) - s))%Q) by (apply Qmult_le_0_compat; lra).
    assert (G2 : (0 <= ((1 # 4) - u) * (u * bp))%Q) by (apply Qmult_le_0_compat; lra).
    assert (K : (u * ((bp + u * bp + (5 # 4) * (u * bp)) - s) == u * bp + (9 # 4) * (u * (u * bp)) - u * s)%Q) by ring.
    assert (K2 : (((1 # 4) - u) * (u * bp) == (1 # 4) * (u * bp) - u * (u * bp))%Q) by ring.
    assert (K3 : (u * (s + (1 # 2)) == u * s + (1 # 2) * u)%Q) by ring.
    rewrite K in G. rewrite K2 in G2. rewrite K3. lra. }
  assert (E4 : (4 * u * (bp + 1) == 4 * (u * bp) + 4 * u)%Q) by ring.
  assert (T0 : (0 <= t)%Q).
  { assert (G : (0 <= (1 - u) * (s + (1 # 2)))%Q) by (apply Qmult_le_0_compat; lra).
    assert (K : ((1 - u) * (s + (1 # 2)) == (s + (1 # 2)) - u * (s + (1 # 2)))%Q) by ring. rewrite K in G. lra. }
  assert (T1 : (Qabs (t - ((x - inject_Z (Qfloor x)) * inject_Z z + (1 # 2))) <= 4 * u * (bp + 1))%Q).
  { fold I. fold fr. fold bp. apply Qabs_Qle_condition. rewrite E4. split; lra. }
  assert (Err := total_error x t _ z Bz T1). fold I bp in Err.
  assert (F0 : 0 <= Qfloor t) by (change 0 with (Qfloor 0); apply Qfloor_resp_le; exact T0).
  assert (F1 : Qfloor t < 2 ^ 64).
  { destruct (floor_bounds t) as [Tf1 _]. rewrite Zlt_Qlt. rewrite E4 in Lt. lra. }
  set (N := total z I (Qfloor t)) in *.
  assert (Bd : forall m, (x < inject_Z m - 1)%Q -> N < m * z).
  { intros k Hk.
    assert (Ik : I + 1 < k).
    { assert (Hk' : (inject_Z (I + 1) < inject_Z k)%Q) by (rewrite inject_Z_plus; change (inject_Z 1) with 1%Q; lra). rewrite <- Zlt_Qlt in Hk'. exact Hk'. }
    unfold N, total. destruct (Z.leb_spec z (Qfloor t)); nia. }
  assert (Lz : z < 2 ^ 64).
  { rewrite Zlt_Qlt. fold bp. lra. }
  destruct (real_encode_spec rnd f showpoint p neg x) as (text & E & S); auto.
  - destruct HS as [H|[H|H]]; [auto|auto|]. right. right. apply Bd. exact H.
  - exists text, N. split; [exact E|]. split; [exact S|]. exact Err.
Qed.
Print Assumptions C30_floating.

(** ** Infinities and NaN *)
Theorem C30_special : forall rnd f showpoint p neg,
  real_encode rnd f showpoint p neg RNan = Ok (sign_text f neg ++ if f_uppercase f then [78; 65; 78] else [110; 97; 110])
  /\ real_encode rnd f showpoint p neg RInf = Ok (sign_text f neg ++ if f_uppercase f then [73; 78; 70] else [105; 110; 102]).
Proof.
  intros rnd [b up sb sp] showpoint p neg. destruct neg, up, sp; split; reflexivity.
Qed.
Print Assumptions C30_special.

(** ** Findings *)
Definition settings (b : Z) (showbase : bool) : fmt :=
  {| f_base := b; f_uppercase := false; f_showbase := showbase; f_showpos := false |}.

(** A negative number with a 20 digit integer part is written before the start of
    the buffer. *)
Theorem C30_buffer_refuted : exists x, (x < inject_Z (2 ^ 64))%Q
  /\ real_encode exact (settings 10 false) false 6 true (RFin x) = UB
  /\ exists text, real_encode exact (settings 10 false) false 6 false (RFin x) = Ok text.
Proof.
  exists (15 * 10 ^ 18 # 1). split; [reflexivity|]. split; [vm_compute; reflexivity|].
  eexists. vm_compute. reflexivity.
Qed.
Print Assumptions C30_buffer_refuted.

(** Numbers not below 2^64 cannot be written. *)
Theorem C30_large_refuted : forall rnd f showpoint p neg x,
  (inject_Z (2 ^ 64) <= x)%Q -> real_encode rnd f showpoint p neg (RFin x) = UB.
Proof.
  intros rnd f showpoint p neg x H. unfold real_encode.
  assert (L : 2 ^ 64 <= Qfloor x) by (rewrite <- (Qfloor_Z (2 ^ 64)); now apply Qfloor_resp_le).
  apply Z.leb_le in L. rewrite L. reflexivity.
Qed.
Print Assumptions C30_large_refuted.

(** showbase puts the prefix into the fraction: 3/4096 in hex with 5 digits is
    printed as 0.0x300, and 1/3 with 3 digits runs backwards over the buffer. *)
Theorem C30_showbase_refuted :
  real_encode exact (settings 16 true) false 5 false (RFin (3 # 4096)) = Ok [48; 46; 48; 120; 51; 48; 48]
  /\ real_encode exact (settings 16 true) false 3 false (RFin (1 # 3)) = UB.
Proof. split; vm_compute; reflexivity. Qed.
Print Assumptions C30_showbase_refuted.

(** When b^p wraps around the digits are wrong: zero is printed as one. *)
Theorem C30_precision_refuted :
  real_encode exact (settings 16 false) false 16 false (RFin 0) = Ok (49 :: 46 :: repeat 48 16).
Proof. vm_compute. reflexivity. Qed.
Print Assumptions C30_precision_refuted.

(** The base 0, which means 10 for integers, divides by zero. *)
Theorem C30_base_zero_refuted : forall rnd f showpoint p neg x,
  f_base f = 0 -> real_encode rnd f showpoint p neg (RFin x) = UB.
Proof.
  intros rnd f showpoint p neg x H. unfold real_encode. rewrite H.
  destruct (_ || _); [reflexivity|]. cbv zeta.
  destruct p as [|p].
  - cbn [put_fraction bind]. destruct ((0 <? 0)%nat || showpoint); [|reflexivity].
    unfold putc. destruct (_ <? _); reflexivity.
  - reflexivity.
Qed.
Print Assumptions C30_base_zero_refuted.

(** 1.9996 with three digits carries into the integer part. *)
Example C30_case :
  real_encode exact (settings 10 false) false 3 true (RFin (19996 # 10000)) = Ok [45; 50; 46; 48; 48; 48]
  /\ 2 <= f_base (settings 10 false) <= 36 /\ plain (settings 10 false) /\ 10 ^ Z.of_nat 3 < 2 ^ 64
  /\ ((19996 # 10000) * inject_Z (10 ^ 3) + (1 # 2) < inject_Z (2 ^ 63) * inject_Z (10 ^ 3))%Q.
Proof. repeat split; try (vm_compute; reflexivity); cbn; try lia. left; reflexivity. Qed.
(** An inexact rounding that meets the bound of [C30_floating] with u = 2^-20. *)
Definition shave (q : Q) : Q := (q - (1 # 2 ^ 20) * q)%Q.
Example C30_case_floating :
  (forall q, Qabs (shave q - q) <= (1 # 2 ^ 20) * Qabs q)%Q
  /\ (inject_Z (10 ^ 3) + 1 + 4 * (1 # 2 ^ 20) * (inject_Z (10 ^ 3) + 1) <= inject_Z (2 ^ 64))%Q
  /\ real_encode shave (settings 10 false) false 3 false (RFin (25 # 8)) = Ok [51; 46; 49; 50; 53].
Proof.
  split; [|split; vm_compute; [discriminate|reflexivity]].
  intro q. unfold shave.
  setoid_replace (q - (1 # 2 ^ 20) * q - q)%Q with (- ((1 # 2 ^ 20) * q))%Q by ring.
  rewrite Qabs_opp, Qabs_Qmult. apply Qle_refl.
Qed.
