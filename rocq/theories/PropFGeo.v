(** C115: orientation over floating point numbers. *)
From Coq Require Import ZArith QArith Qround Qpower Qabs List Bool Lia Lqa.
From Verif Require Import FGeoModel FGeoProofs.
From Verif Require GeoModel HullProofs MGeoProofs.
Import ListNotations.
Local Open Scope Q_scope.

(** float and double are the binary formats of 32 and 64 bits of IEEE 754: the smallest number above 0, the
    smallest above 1, and what is rounded to infinity. *)
Lemma smallest f q : 0 < q -> representable f q -> 2 ^ emin f <= q.
Proof.
  intros H (m & e & E & _ & L). pose proof (two_pos e) as P. rewrite E in *.
  assert (M : (0 < m)%Z).
  { destruct (Z_lt_le_dec 0 m) as [|N]; [assumption|exfalso]. assert (inject_Z m <= 0) by (change 0 with (inject_Z 0); rewrite <- Zle_Qle; lia). nra. }
  assert (1 <= inject_Z m) by (change 1 with (inject_Z 1); rewrite <- Zle_Qle; lia).
  pose proof (two_le _ _ L). nra.
Qed.
Theorem C115_formats :
  (forall q, 0 < q -> representable double q -> 2 ^ (-1074) <= q) /\ representable double (2 ^ (-1074)) /\
  (forall q, 0 < q -> representable single q -> 2 ^ (-149) <= q) /\ representable single (2 ^ (-149)) /\
  (forall q, 1 < q -> representable double q -> 1 + 2 ^ (-52) <= q) /\ representable double (1 + 2 ^ (-52)) /\
  (forall q, 1 < q -> representable single q -> 1 + 2 ^ (-23) <= q) /\ representable single (1 + 2 ^ (-23)) /\
  to_num double (2 ^ 1024 - 2 ^ 970) = Inf false /\ to_num double (2 ^ 1024 - 2 ^ 970 - 1) <> Inf false /\
  to_num single (2 ^ 128 - 2 ^ 103) = Inf false /\ to_num single (2 ^ 128 - 2 ^ 103 - 1) <> Inf false.
Proof.
  assert (N : forall f q, (1 <= prec f)%Z -> 1 < q -> representable f q -> 1 + 2 ^ (1 - prec f) <= q).
  { intros f q Hp H (m & e & E & A & L). pose proof (two_pos e) as P.
    destruct (Z_le_gt_dec (1 - prec f) e) as [G|G].
    - set (k := (e + (prec f - 1))%Z). set (T := 2 ^ (1 - prec f)). pose proof (two_pos (1 - prec f)) as PT. fold T in PT.
      assert (Ek : 2 ^ e == inject_Z (2 ^ k) * T).
      { rewrite two_Z by (unfold k; lia). unfold T. rewrite <- two_plus. unfold k. now replace (e + (prec f - 1) + (1 - prec f))%Z with e by lia. }
      assert (E1 : 1 == inject_Z (2 ^ (prec f - 1)) * T).
      { rewrite two_Z by lia. unfold T. rewrite <- two_plus. now replace (prec f - 1 + (1 - prec f))%Z with 0%Z by lia. }
      rewrite E, Ek in *. rewrite E1 in H at 1.
      assert (L2 : inject_Z (2 ^ (prec f - 1)) < inject_Z (m * 2 ^ k)).
      { rewrite inject_Z_mult. apply (Qmult_lt_r _ _ T PT). rewrite <- Qmult_assoc. exact H. }
      rewrite <- Zlt_Qlt in L2.
      assert (L3 : inject_Z (2 ^ (prec f - 1) + 1) <= inject_Z (m * 2 ^ k)) by (rewrite <- Zle_Qle; lia).
      rewrite inject_Z_plus, inject_Z_mult in L3. change (inject_Z 1) with 1 in L3.
      apply (Qmult_le_compat_r _ _ T) in L3; [|lra]. rewrite E1 at 1. lra.
    - exfalso. pose proof (two_le e (- prec f) ltac:(lia)) as G1.
      assert (E1 : inject_Z (2 ^ prec f) * 2 ^ (- prec f) == 1).
      { rewrite two_Z by lia. rewrite <- two_plus. now rewrite Z.add_opp_diag_r. }
      assert (M : inject_Z m < inject_Z (2 ^ prec f)) by (rewrite <- Zlt_Qlt; lia).
      assert (0 < inject_Z (2 ^ prec f)) by (change 0 with (inject_Z 0); rewrite <- Zlt_Qlt; apply Z.pow_pos_nonneg; lia).
      rewrite E in H. nra. }
  repeat split.
  - intros q. exact (smallest double q).
  - exists 1%Z, (-1074)%Z. cbn. repeat split; discriminate.
  - intros q. exact (smallest single q).
  - exists 1%Z, (-149)%Z. cbn. repeat split; discriminate.
  - intros q. exact (N double q ltac:(cbn; lia)).
  - exists (2 ^ 52 + 1)%Z, (-52)%Z. cbn. repeat split; discriminate.
  - intros q. exact (N single q ltac:(cbn; lia)).
  - exists (2 ^ 23 + 1)%Z, (-23)%Z. cbn. repeat split; discriminate.
  - vm_compute. discriminate.
  - vm_compute. discriminate.
Qed.

(** A point with finite coordinates; [qsgn]: the sign of a rational number;
    [representable f q]: [q] = m 2^e with |m| < 2^prec and e >= emin. *)
Definition fp (x y : Q) : fpt := FP (Fin x) (Fin y).
(** The exact orientation: the sign of twice the signed area of (o, r, l). *)
Definition exact2 (lx ly rx ry : Q) : Z := qsgn (rx * ly - ry * lx).
Definition exact3 (lx ly rx ry ox oy : Q) : Z := qsgn ((rx - ox) * (ly - oy) - (ry - oy) * (lx - ox)).

(** Two vectors: in every format the answer is right or "collinear", also if products
    overflow or underflow; left is never taken for right, and vectors that are collinear
    are found collinear. *)
Theorem C115_vectors : forall f lx ly rx ry, (1 <= prec f)%Z ->
  (forient f (fp lx ly) (fp rx ry) = 0%Z \/ forient f (fp lx ly) (fp rx ry) = exact2 lx ly rx ry)
  /\ (rx * ly - ry * lx == 0 -> forient f (fp lx ly) (fp rx ry) = 0%Z).
Proof.
  intros f lx ly rx ry Hp. pose proof (area_sign f Hp rx ly ry lx) as A. cbn zeta in A.
  split; [exact A|]. intro Z. destruct A as [A|A]; [exact A|].
  change (forient f (fp lx ly) (fp rx ry)) with (fsgn (fsub f (to_num f (rx * ly)) (to_num f (ry * lx)))).
  rewrite A. unfold qsgn. destruct (Qcompare_spec (rx * ly - ry * lx) 0); [reflexivity | lra | lra].
Qed.

(** "Collinear" is wrong only for vectors with an area that is small against the products. *)
Theorem C115_collinear : forall f lx ly rx ry, (1 <= prec f)%Z -> (emin f <= emax f - 1)%Z ->
  Qabs (rx * ly) <= 2 ^ (emax f - 1) -> Qabs (ry * lx) <= 2 ^ (emax f - 1) ->
  forient f (fp lx ly) (fp rx ry) = 0%Z ->
  Qabs (rx * ly - ry * lx) <= (Qabs (rx * ly) + Qabs (ry * lx)) * 2 ^ (- prec f) + 2 * 2 ^ emin f.
Proof. intros f lx ly rx ry Hp He X Y E. exact (area_zero f Hp _ _ He X Y E). Qed.

Lemma area_proper f a b c d a' b' c' d' : (1 <= prec f)%Z -> a == a' -> b == b' -> c == c' -> d == d' ->
  fsgn (fsub f (to_num f (a * b)) (to_num f (c * d))) = 0%Z
  \/ fsgn (fsub f (to_num f (a * b)) (to_num f (c * d))) = qsgn (a' * b' - c' * d').
Proof.
  intros Hp A B C D. rewrite (qsgn_eq (a' * b' - c' * d') (a * b - c * d)); [now apply area_sign|].
  now rewrite A, B, C, D.
Qed.

(** Three points whose differences are numbers of the format: right or "collinear". *)
Theorem C115_exact_differences : forall f lx ly rx ry ox oy, (1 <= prec f)%Z ->
  (forall d, In d [lx - ox; ly - oy; rx - ox; ry - oy] -> representable f d /\ Qabs d < 2 ^ emax f) ->
  forient3 f (fp lx ly) (fp rx ry) (fp ox oy) = 0%Z
  \/ forient3 f (fp lx ly) (fp rx ry) (fp ox oy) = exact3 lx ly rx ry ox oy.
Proof.
  intros f lx ly rx ry ox oy Hp D. cbn [In] in D.
  destruct (D _ (or_introl eq_refl)) as [R1 B1]. destruct (D _ (or_intror (or_introl eq_refl))) as [R2 B2].
  destruct (D _ (or_intror (or_intror (or_introl eq_refl)))) as [R3 B3].
  destruct (D _ (or_intror (or_intror (or_intror (or_introl eq_refl))))) as [R4 B4].
  destruct (to_num_exact f Hp _ R1 B1) as (d1 & E1 & Q1). destruct (to_num_exact f Hp _ R2 B2) as (d2 & E2 & Q2).
  destruct (to_num_exact f Hp _ R3 B3) as (d3 & E3 & Q3). destruct (to_num_exact f Hp _ R4 B4) as (d4 & E4 & Q4).
  unfold forient3, fpsub, fp, fsub. cbn [fx fy neg_num fadd]. unfold Qminus in *.
  rewrite E1, E2, E3, E4. unfold forient, farea. cbn [fx fy fmul]. now apply area_proper.
Qed.

(** Numbers of the format, each coordinate within a factor of two of that of the origin. *)
Theorem C115_near_origin : forall f lx ly rx ry ox oy, (1 <= prec f)%Z ->
  (forall x, In x [lx; ly; rx; ry; ox; oy] -> representable f x /\ 0 <= x < 2 ^ emax f) ->
  ox / 2 <= lx <= 2 * ox -> ox / 2 <= rx <= 2 * ox -> oy / 2 <= ly <= 2 * oy -> oy / 2 <= ry <= 2 * oy ->
  forient3 f (fp lx ly) (fp rx ry) (fp ox oy) = 0%Z
  \/ forient3 f (fp lx ly) (fp rx ry) (fp ox oy) = exact3 lx ly rx ry ox oy.
Proof.
  intros f lx ly rx ry ox oy Hp R L1 L2 L3 L4. apply C115_exact_differences; [exact Hp|].
  assert (K : forall x o, In x [lx; ly; rx; ry; ox; oy] -> In o [lx; ly; rx; ry; ox; oy] ->
    o / 2 <= x <= 2 * o -> representable f (x - o) /\ Qabs (x - o) < 2 ^ emax f).
  { intros x o Ix Io [A B]. destruct (R x Ix) as [Rx Bx]. destruct (R o Io) as [Ro Bo].
    split; [now apply sterbenz|]. apply Qabs_Qlt_condition. lra. }
  intros d [<-|[<-|[<-|[<-|[]]]]]; apply K; cbn [In]; tauto || assumption.
Qed.

(** Points on a grid of step 2^e in a box of W x H steps with W H at most 2^prec: exact.
    With e = 0 and double: integers in a box of area up to 2^53. *)
Theorem C115_grid : forall f e lx ly rx ry ox oy x0 y0 W H, (1 <= prec f)%Z ->
  (emin f <= e)%Z -> (emin f <= e + e)%Z -> (prec f + e < emax f)%Z -> (prec f + (e + e) < emax f)%Z ->
  (forall p, In p [GeoModel.P lx ly; GeoModel.P rx ry; GeoModel.P ox oy] -> MGeoProofs.in_box x0 y0 W H p) ->
  (W <= 2 ^ prec f)%Z -> (H <= 2 ^ prec f)%Z -> (W * H <= 2 ^ prec f)%Z ->
  let g := fun x : Z => inject_Z x * 2 ^ e in
  forient3 f (fp (g lx) (g ly)) (fp (g rx) (g ry)) (fp (g ox) (g oy))
  = Z.sgn ((rx - ox) * (ly - oy) - (ry - oy) * (lx - ox)).
Proof.
  intros f e lx ly rx ry ox oy x0 y0 W H Hp He He2 Hm Hm2 B HW HH HA g.
  pose proof (B _ (or_introl eq_refl)) as Bl. pose proof (B _ (or_intror (or_introl eq_refl))) as Br.
  pose proof (B _ (or_intror (or_intror (or_introl eq_refl)))) as Bo.
  assert (Ta : (Z.abs ((rx - ox) * (ly - oy) - (ry - oy) * (lx - ox)) <= W * H)%Z)
    by exact (MGeoProofs.turn_bound x0 y0 W H _ _ _ Bo Br Bl).
  unfold MGeoProofs.in_box in *. cbn [GeoModel.px GeoModel.py] in *.
  assert (Rep : forall m s, (Z.abs m <= 2 ^ prec f)%Z -> (emin f <= s)%Z -> (prec f + s < emax f)%Z ->
    exists q, to_num f (inject_Z m * 2 ^ s) = Fin q /\ q == inject_Z m * 2 ^ s).
  { intros m s M S1 S2. apply to_num_exact; [exact Hp | now apply representable_int|].
    assert (Ub : inject_Z (Z.abs m) * 2 ^ s <= 2 ^ (prec f + s)).
    { rewrite two_plus, <- (two_Z (prec f)) by lia.
      apply Qmult_le_compat_r; [rewrite <- Zle_Qle; exact M | apply Qlt_le_weak, two_pos]. }
    pose proof (Qpower_lt_compat_l 2 _ _ S2 eq_refl).
    rewrite Qabs_Qmult, (Qabs_pos (2 ^ s)) by apply Qlt_le_weak, two_pos.
    change (Qabs (inject_Z m)) with (inject_Z (Z.abs m)). lra. }
  assert (Dif : forall x o s, (Z.abs (x - o) <= 2 ^ prec f)%Z -> (emin f <= s)%Z -> (prec f + s < emax f)%Z ->
    forall a b, a == inject_Z x * 2 ^ s -> b == inject_Z o * 2 ^ s ->
    exists q, to_num f (a + - b) = Fin q /\ q == inject_Z (x - o) * 2 ^ s).
  { intros x o s M S1 S2 a b Ea Eb.
    assert (E : a + - b == inject_Z (x - o) * 2 ^ s).
    { rewrite Ea, Eb, <- Z.add_opp_r, inject_Z_plus, inject_Z_opp. ring. }
    destruct (Rep _ _ M S1 S2) as (q & Eq & Qq).
    destruct (to_num_exact f Hp (a + - b)) as (q' & Eq' & Qq').
    - apply representable_eq with (inject_Z (x - o) * 2 ^ s); [now rewrite E | now apply representable_int].
    - rewrite E. unfold to_num in Eq.
      destruct (Qlt_le_dec (round f (inject_Z (x - o) * 2 ^ s)) (2 ^ emax f)) as [A1|]; [|discriminate].
      destruct (Qlt_le_dec (- 2 ^ emax f) (round f (inject_Z (x - o) * 2 ^ s))) as [A2|]; [|discriminate].
      rewrite round_exact in A1, A2 by (auto using representable_int). apply Qabs_Qlt_condition. lra.
    - exists q'. split; [exact Eq' | now rewrite Qq', E]. }
  assert (Pro : forall x y, (Z.abs (x * y) <= 2 ^ prec f)%Z -> forall a b, a == inject_Z x * 2 ^ e -> b == inject_Z y * 2 ^ e ->
    exists q, to_num f (a * b) = Fin q /\ q == inject_Z (x * y) * 2 ^ (e + e)).
  { intros x y M a b Ea Eb.
    assert (E : a * b == inject_Z (x * y) * 2 ^ (e + e)).
    { rewrite Ea, Eb, two_plus, inject_Z_mult. ring. }
    destruct (Rep _ _ M He2 Hm2) as (q & Eq & Qq).
    destruct (to_num_exact f Hp (a * b)) as (q' & Eq' & Qq').
    - apply representable_eq with (inject_Z (x * y) * 2 ^ (e + e)); [now rewrite E | now apply representable_int].
    - rewrite E. unfold to_num in Eq.
      destruct (Qlt_le_dec (round f (inject_Z (x * y) * 2 ^ (e + e))) (2 ^ emax f)) as [A1|]; [|discriminate].
      destruct (Qlt_le_dec (- 2 ^ emax f) (round f (inject_Z (x * y) * 2 ^ (e + e)))) as [A2|]; [|discriminate].
      rewrite round_exact in A1, A2 by (auto using representable_int). apply Qabs_Qlt_condition. lra.
    - exists q'. split; [exact Eq' | now rewrite Qq', E]. }
  destruct (Dif lx ox e ltac:(lia) He Hm (g lx) (g ox) ltac:(reflexivity) ltac:(reflexivity)) as (d1 & E1 & Q1).
  destruct (Dif ly oy e ltac:(lia) He Hm (g ly) (g oy) ltac:(reflexivity) ltac:(reflexivity)) as (d2 & E2 & Q2).
  destruct (Dif rx ox e ltac:(lia) He Hm (g rx) (g ox) ltac:(reflexivity) ltac:(reflexivity)) as (d3 & E3 & Q3).
  destruct (Dif ry oy e ltac:(lia) He Hm (g ry) (g oy) ltac:(reflexivity) ltac:(reflexivity)) as (d4 & E4 & Q4).
  assert (M1 : (Z.abs ((rx - ox) * (ly - oy)) <= 2 ^ prec f)%Z).
  { etransitivity; [apply MGeoProofs.abs_mul_le with (A := W) (B := H); lia | lia]. }
  assert (M2 : (Z.abs ((ry - oy) * (lx - ox)) <= 2 ^ prec f)%Z).
  { etransitivity; [apply MGeoProofs.abs_mul_le with (A := H) (B := W); lia | lia]. }
  destruct (Pro _ _ M1 d3 d2 Q3 Q2) as (p1 & F1 & G1). destruct (Pro _ _ M2 d4 d1 Q4 Q1) as (p2 & F2 & G2).
  destruct (Dif ((rx - ox) * (ly - oy))%Z ((ry - oy) * (lx - ox))%Z (e + e)%Z ltac:(lia) He2 Hm2 p1 p2 G1 G2) as (q & Eq & Qq).
  unfold forient3, forient, farea, fpsub, fp, fsub. cbn [fx fy neg_num fadd]. rewrite E1, E2, E3, E4.
  cbn [fmul]. rewrite F1, F2. cbn [neg_num fadd]. rewrite Eq. cbn [fsgn].
  set (z := ((rx - ox) * (ly - oy) - (ry - oy) * (lx - ox))%Z) in *. pose proof (two_pos (e + e)) as P.
  destruct (Z.compare_spec z 0) as [C|C|C].
  - rewrite C in *. change (inject_Z 0) with 0 in Qq. destruct (Qcompare_spec q 0); [reflexivity | lra | lra].
  - assert (inject_Z z <= -1) as Zq by (change (-1) with (inject_Z (-1)); rewrite <- Zle_Qle; lia).
    assert (q < 0).
    { rewrite Qq. generalize dependent (inject_Z z). intros k _ Hk.
      assert (k * 2 ^ (e + e) <= -1 * 2 ^ (e + e)) by (apply Qmult_le_compat_r; lra). lra. }
    destruct (Qcompare_spec q 0); [lra | rewrite Z.sgn_neg by exact C; reflexivity | lra].
  - assert (1 <= inject_Z z) as Zq by (change 1 with (inject_Z 1); rewrite <- Zle_Qle; lia).
    assert (0 < q).
    { rewrite Qq. generalize dependent (inject_Z z). intros k _ Hk.
      assert (1 * 2 ^ (e + e) <= k * 2 ^ (e + e)) by (apply Qmult_le_compat_r; lra). lra. }
    destruct (Qcompare_spec q 0); [lra | lra | rewrite Z.sgn_pos by exact C; reflexivity].
Qed.

(** Three points in general: rounding of the differences can give the opposite answer.
    Doubles 12, 24 and 1/2 plus multiples of 2^-53. *)
Theorem C115_opposite_refuted :
  let o := inject_Z (2 ^ 52 + 41) * 2 ^ (-53) in let o' := inject_Z (2 ^ 52 + 48) * 2 ^ (-53) in
  forient3 double (fp 12 12) (fp 24 24) (fp o o') = 1%Z /\ exact3 12 12 24 24 o o' = (-1)%Z.
Proof. split; vm_compute; reflexivity. Qed.

(** Integers just outside of the bound of C115_grid: a wrong "collinear". *)
Theorem C115_grid_bound_refuted :
  (94906267 * 94906266 > 2 ^ 53)%Z
  /\ forient3 double (fp 94906266 94906265) (fp 94906267 94906266) (fp 0 0) = 0%Z
  /\ exact3 94906266 94906265 94906267 94906266 0 0 = (-1)%Z.
Proof. split; [reflexivity|]. split; vm_compute; reflexivity. Qed.

(** Products from 2^1024 on (2^128 for float) are infinite, and two of them are taken for collinear; just below they are not. *)
Theorem C115_overflow_refuted :
  (forient double (fp (2 ^ 512) (2 ^ 512)) (fp (2 ^ 513) (2 ^ 512)) = 0%Z /\ 0 < 2 ^ 513 * 2 ^ 512 - 2 ^ 512 * 2 ^ 512)
  /\ forient double (fp (2 ^ 511) (2 ^ 511)) (fp (3 * 2 ^ 511) (2 ^ 512)) = 1%Z
  /\ (forient single (fp (2 ^ 64) (2 ^ 64)) (fp (2 ^ 65) (2 ^ 64)) = 0%Z /\ 0 < 2 ^ 65 * 2 ^ 64 - 2 ^ 64 * 2 ^ 64)
  /\ forient single (fp (2 ^ 63) (2 ^ 63)) (fp (3 * 2 ^ 63) (2 ^ 64)) = 1%Z.
Proof. repeat split; vm_compute; reflexivity. Qed.

Example C115_case :
  forient3 double (fp (1 # 2) (3 # 4)) (fp 1 (1 # 4)) (fp (1 # 8) (1 # 8)) = 1%Z
  /\ forient double (fp (2 ^ 600) (2 ^ 600)) (fp (2 ^ 601) (- 2 ^ 600)) = 1%Z
  /\ forient double (fp (2 ^ 600) (2 ^ 600)) (fp (2 ^ 601) (2 ^ 600)) = 0%Z
  /\ forient3 single (fp 4096 4095) (fp 1 1) (fp 0 0) = (-1)%Z.
Proof. repeat (split; [vm_compute; reflexivity|]). vm_compute. reflexivity. Qed.

Print Assumptions C115_vectors.
Print Assumptions C115_collinear.
Print Assumptions C115_exact_differences.
Print Assumptions C115_near_origin.
Print Assumptions C115_grid.
Print Assumptions C115_opposite_refuted.
Print Assumptions C115_grid_bound_refuted.
Print Assumptions C115_overflow_refuted.
Print Assumptions C115_formats.
