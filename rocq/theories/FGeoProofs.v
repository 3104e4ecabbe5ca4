(** Proofs about rounding and orientation over floating point numbers: FGeoModel.v. *)
From Coq Require Import ZArith QArith Qround Qpower Qabs List Bool Lia Lqa.
From Verif Require Import FGeoModel.
Local Open Scope Q_scope.

Lemma two_pos e : 0 < 2 ^ e. Proof. apply Qpower_0_lt. reflexivity. Qed.
Lemma two_nz e : ~ 2 ^ e == 0. Proof. pose proof (two_pos e). lra. Qed.
Lemma two_plus a b : 2 ^ (a + b) == 2 ^ a * 2 ^ b. Proof. apply Qpower_plus. discriminate. Qed.
Lemma two_le a b : (a <= b)%Z -> 2 ^ a <= 2 ^ b.
Proof. intro H. apply Qpower_le_compat_l; [exact H | discriminate]. Qed.
Lemma two_lt_inv a b : 2 ^ a < 2 ^ b -> (a < b)%Z.
Proof. intro H. apply Qpower_lt_compat_l_inv with 2; [exact H | reflexivity]. Qed.
Lemma two_Z n : (0 <= n)%Z -> inject_Z (2 ^ n) == 2 ^ n.
Proof. intro H. apply Zpower_Qpower. exact H. Qed.
Lemma div_two_le x y e : x <= y -> x / 2 ^ e <= y / 2 ^ e.
Proof. intro H. apply Qmult_le_compat_r; [exact H|]. apply Qlt_le_weak, Qinv_lt_0_compat, two_pos. Qed.

(** ** Nearest integers *)
Lemma floor_bounds q : inject_Z (Qfloor q) <= q /\ q < inject_Z (Qfloor q) + 1.
Proof.
  split; [apply Qfloor_le|]. pose proof (Qlt_floor q) as H. rewrite inject_Z_plus in H. exact H.
Qed.
Lemma nearest_cases q : nearest q = Qfloor q \/ nearest q = (Qfloor q + 1)%Z.
Proof. unfold nearest. destruct (Qcompare _ _); auto. destruct (Z.even _); auto. Qed.
Lemma inject_lt a b : inject_Z a < inject_Z b -> (a < b)%Z. Proof. rewrite <- Zlt_Qlt. auto. Qed.

Lemma nearest_mono q r : q <= r -> (nearest q <= nearest r)%Z.
Proof.
  intro H. pose proof (Qfloor_resp_le _ _ H) as F.
  destruct (Z.eq_dec (Qfloor q) (Qfloor r)) as [E|E].
  - unfold nearest. rewrite <- E.
    destruct (Qcompare_spec (q - inject_Z (Qfloor q)) (1 # 2)) as [A|A|A];
    destruct (Qcompare_spec (r - inject_Z (Qfloor q)) (1 # 2)) as [B|B|B];
    try destruct (Z.even (Qfloor q)); try lia; exfalso; lra.
  - destruct (nearest_cases q), (nearest_cases r); lia.
Qed.
Lemma nearest_int q z : q == inject_Z z -> nearest q = z.
Proof.
  intro E. unfold nearest. assert (F : Qfloor q = z) by (rewrite E; apply Qfloor_Z).
  rewrite F. destruct (Qcompare_spec (q - inject_Z z) (1 # 2)) as [A|A|A]; [|reflexivity|]; exfalso; lra.
Qed.

(** ** Magnitudes *)
Lemma magnitude_spec q : 0 < q -> 2 ^ (magnitude q - 1) <= q /\ q < 2 ^ magnitude q.
Proof.
  intro H. destruct q as [n d]. unfold magnitude. cbn [Qnum Qden].
  assert (Hn : (0 < n)%Z) by (unfold Qlt in H; cbn in H; lia).
  set (a := Z.log2 n). set (b := Z.log2 (Zpos d)).
  destruct (Z.log2_spec n Hn) as [N1 N2]. destruct (Z.log2_spec (Zpos d) eq_refl) as [D1 D2].
  fold a in N1, N2. fold b in D1, D2.
  assert (A0 : (0 <= a)%Z) by apply Z.log2_nonneg. assert (B0 : (0 <= b)%Z) by apply Z.log2_nonneg.
  assert (X : (n # d) * inject_Z (Zpos d) == inject_Z n).
  { unfold Qeq, Qmult, inject_Z. cbn [Qnum Qden]. lia. }
  rewrite Zle_Qle, two_Z in N1, D1 by lia.
  rewrite Zlt_Qlt, two_Z in N2, D2 by lia.
  unfold Z.succ in N2, D2. rewrite two_plus in N2, D2. change (2 ^ 1) with 2 in N2, D2.
  set (x := n # d) in *. set (dd := inject_Z (Zpos d)) in *. set (nn := inject_Z n) in *.
  pose proof (two_pos a) as Pa. pose proof (two_pos b) as Pb. pose proof (two_pos (a - b)) as Pk.
  assert (K : 2 ^ a == 2 ^ (a - b) * 2 ^ b).
  { rewrite <- two_plus. now replace (a - b + b)%Z with a by lia. }
  assert (L : 2 ^ (a - b - 1) * 2 == 2 ^ (a - b)).
  { change 2 with (2 ^ 1) at 2. rewrite <- two_plus. now replace (a - b - 1 + 1)%Z with (a - b)%Z by lia. }
  assert (M : 2 ^ (a - b + 1) == 2 ^ (a - b) * 2).
  { rewrite two_plus. reflexivity. }
  set (k := 2 ^ (a - b)) in *. set (tb := 2 ^ b) in *.
  destruct (Qlt_le_dec x k) as [C|C].
  - split; [|exact C]. apply Qnot_lt_le. intro Lt.
    assert (x * dd < (1 # 2) * k * (tb * 2)); [|nra].
    assert (x < (1 # 2) * k) by lra. nra.
  - replace (a - b + 1 - 1)%Z with (a - b)%Z by lia. split; [exact C|].
    rewrite M. apply Qnot_le_lt. intro Le. fold k in Le. nra.
Qed.
Lemma magnitude_mono q r : 0 < q -> q <= r -> (magnitude q <= magnitude r)%Z.
Proof.
  intros H L. destruct (magnitude_spec q H) as [A _]. destruct (magnitude_spec r ltac:(lra)) as [_ B].
  assert (2 ^ (magnitude q - 1) < 2 ^ magnitude r) as C by lra. apply two_lt_inv in C. lia.
Qed.

(** ** Rounding *)
Lemma round_pos_nonneg f q : 0 < q -> 0 <= round_pos f q.
Proof.
  intro H. unfold round_pos. pose proof (two_pos (last_bit f q)) as P.
  assert (0 <= nearest (q / 2 ^ last_bit f q))%Z as N.
  { rewrite <- (nearest_int 0 0) by reflexivity. apply nearest_mono.
    apply Qle_shift_div_l; [exact P | lra]. }
  rewrite Zle_Qle in N. change (inject_Z 0) with 0 in N. nra.
Qed.

Section Format.
  Variable f : format.
  Hypothesis Hp : (1 <= prec f)%Z.

  (** A multiple of a power of two that is at least the last bit is a bound to rounding. *)
  Lemma round_pos_le q m e : 0 < q -> (last_bit f q <= e)%Z -> q <= inject_Z m * 2 ^ e ->
    round_pos f q <= inject_Z m * 2 ^ e.
  Proof.
    intros H L B. unfold round_pos. set (b := last_bit f q) in *. pose proof (two_pos b) as P.
    assert (E : inject_Z m * 2 ^ e == inject_Z (m * 2 ^ (e - b)) * 2 ^ b).
    { rewrite inject_Z_mult, two_Z by lia. rewrite <- Qmult_assoc, <- two_plus.
      now replace (e - b + b)%Z with e by lia. }
    rewrite E in B |- *. apply Qmult_le_compat_r; [|lra]. rewrite <- Zle_Qle.
    rewrite <- (nearest_int (inject_Z (m * 2 ^ (e - b))) (m * 2 ^ (e - b))) by reflexivity.
    apply nearest_mono. apply Qle_shift_div_r; assumption.
  Qed.
  Lemma round_pos_ge q m e : 0 < q -> (last_bit f q <= e)%Z -> inject_Z m * 2 ^ e <= q ->
    inject_Z m * 2 ^ e <= round_pos f q.
  Proof.
    intros H L B. unfold round_pos. set (b := last_bit f q) in *. pose proof (two_pos b) as P.
    assert (E : inject_Z m * 2 ^ e == inject_Z (m * 2 ^ (e - b)) * 2 ^ b).
    { rewrite inject_Z_mult, two_Z by lia. rewrite <- Qmult_assoc, <- two_plus.
      now replace (e - b + b)%Z with e by lia. }
    rewrite E in B |- *. apply Qmult_le_compat_r; [|lra]. rewrite <- Zle_Qle.
    rewrite <- (nearest_int (inject_Z (m * 2 ^ (e - b))) (m * 2 ^ (e - b))) by reflexivity.
    apply nearest_mono. apply Qle_shift_div_l; assumption.
  Qed.

  Lemma round_pos_mono q r : 0 < q -> q <= r -> round_pos f q <= round_pos f r.
  Proof.
    intros H L. pose proof (magnitude_mono q r H L) as M.
    assert (Lb : (last_bit f q <= last_bit f r)%Z) by (unfold last_bit; lia).
    destruct (Z.eq_dec (last_bit f q) (last_bit f r)) as [E|E].
    - unfold round_pos. rewrite <- E. apply Qmult_le_compat_r; [|apply Qlt_le_weak, two_pos].
      rewrite <- Zle_Qle. apply nearest_mono. now apply div_two_le.
    - (* there is a power of two between the numbers *)
      set (k := magnitude r). destruct (magnitude_spec r ltac:(lra)) as [R1 _]. fold k in R1.
      destruct (magnitude_spec q H) as [_ Q2].
      assert (Hk : last_bit f r = (k - prec f)%Z) by (unfold last_bit in *; fold k; lia).
      assert (Mq : (magnitude q <= k - 1)%Z) by (unfold last_bit in *; fold k in Lb, E, Hk; lia).
      pose proof (two_le _ _ Mq) as T.
      assert (One : inject_Z 1 * 2 ^ (k - 1) == 2 ^ (k - 1)) by apply Qmult_1_l.
      apply Qle_trans with (inject_Z 1 * 2 ^ (k - 1)).
      + apply round_pos_le; [exact H | lia | rewrite One; lra].
      + apply round_pos_ge; [lra | lia | rewrite One; exact R1].
  Qed.

  Lemma round_pos_Q q : 0 < q -> round f q = round_pos f q.
  Proof. intro H. unfold round. destruct (Qcompare_spec q 0); [lra | lra | reflexivity]. Qed.
  Lemma round_neg_Q q : q < 0 -> round f q = - round_pos f (- q).
  Proof. intro H. unfold round. destruct (Qcompare_spec q 0); [lra | reflexivity | lra]. Qed.
  Lemma round_zero q : q == 0 -> round f q = 0.
  Proof. intro H. unfold round. destruct (Qcompare_spec q 0); [reflexivity | lra | lra]. Qed.

  Theorem round_mono q r : q <= r -> round f q <= round f r.
  Proof.
    intro H. destruct (Q_dec q 0) as [[Q0|Q0]|Q0], (Q_dec r 0) as [[R0|R0]|R0];
      rewrite ?(round_pos_Q _ Q0), ?(round_neg_Q _ Q0), ?(round_zero _ Q0),
              ?(round_pos_Q _ R0), ?(round_neg_Q _ R0), ?(round_zero _ R0); try lra.
    - pose proof (round_pos_mono (- r) (- q)). lra.
    - pose proof (round_pos_nonneg f (- q)). pose proof (round_pos_nonneg f r). lra.
    - pose proof (round_pos_nonneg f (- q)). lra.
    - apply round_pos_mono; lra.
    - pose proof (round_pos_nonneg f r). lra.
  Qed.
  Lemma round_eq q r : q == r -> round f q == round f r.
  Proof. intro E. apply Qle_antisym; apply round_mono; lra. Qed.
  Lemma round_opp q : round f (- q) == - round f q.
  Proof.
    destruct (Q_dec q 0) as [[Q0|Q0]|Q0].
    - rewrite (round_neg_Q _ Q0), round_pos_Q by lra. lra.
    - rewrite (round_pos_Q _ Q0), round_neg_Q by lra.
      rewrite <- round_pos_Q, <- (round_pos_Q q) by lra.
      rewrite (round_eq (- - q) q) by lra. lra.
    - rewrite !round_zero by lra. lra.
  Qed.

  (** Numbers of the format, the upper bound of exponents aside. *)
  Definition representable (q : Q) : Prop :=
    exists m e : Z, q == inject_Z m * 2 ^ e /\ (Z.abs m < 2 ^ prec f)%Z /\ (emin f <= e)%Z.

  Lemma round_exact q : representable q -> round f q == q.
  Proof.
    assert (Pos : forall q, 0 < q -> representable q -> round_pos f q == q).
    { clear q. intros q H (m & e & E & M & L). 
      assert (Lb : (last_bit f q <= e)%Z).
      { unfold last_bit. apply Z.max_lub; [exact L|].
        destruct (magnitude_spec q H) as [A _].
        assert (q < 2 ^ (prec f + e)) as B.
        { rewrite E, two_plus, <- (two_Z (prec f)) by lia. apply Qmult_lt_compat_r; [apply two_pos|].
          rewrite <- Zlt_Qlt. lia. }
        assert (2 ^ (magnitude q - 1) < 2 ^ (prec f + e)) as C by lra. apply two_lt_inv in C. lia. }
      assert (U : round_pos f q <= inject_Z m * 2 ^ e) by (apply round_pos_le; [exact H | exact Lb | lra]).
      assert (V : inject_Z m * 2 ^ e <= round_pos f q) by (apply round_pos_ge; [exact H | exact Lb | lra]).
      lra. }
    intro R. destruct (Q_dec q 0) as [[Q0|Q0]|Q0].
    - rewrite (round_neg_Q _ Q0). rewrite Pos; [lra | lra|].
      destruct R as (m & e & E & M & L). exists (- m)%Z, e. split; [|split; [lia | exact L]].
      rewrite E, inject_Z_opp. ring.
    - rewrite (round_pos_Q _ Q0). now apply Pos.
    - rewrite (round_zero _ Q0). lra.
  Qed.

  Lemma representable_eq q r : q == r -> representable q -> representable r.
  Proof. intros E (m & e & A & B). exists m, e. split; [now rewrite <- E | exact B]. Qed.

  (** Integral multiples of a power of two up to 2^prec. *)
  Lemma representable_int m e : (Z.abs m <= 2 ^ prec f)%Z -> (emin f <= e)%Z ->
    representable (inject_Z m * 2 ^ e).
  Proof.
    intros M L. destruct (Z.eq_dec (Z.abs m) (2 ^ prec f)) as [E|E].
    - assert (P : (2 ^ prec f = 2 ^ (prec f - 1) * 2)%Z).
      { replace (prec f) with (prec f - 1 + 1)%Z at 1 by lia. rewrite Z.pow_add_r by lia. reflexivity. }
      assert (Pp : (0 < 2 ^ (prec f - 1))%Z) by (apply Z.pow_pos_nonneg; lia).
      exists (Z.sgn m * 2 ^ (prec f - 1))%Z, (e + 1)%Z. split; [|split; [|lia]].
      + rewrite two_plus. change (2 ^ 1) with 2.
        replace m with (Z.sgn m * 2 ^ (prec f - 1) * 2)%Z at 1 by lia.
        rewrite !inject_Z_mult. change (inject_Z 2) with 2. ring.
      + rewrite Z.abs_mul, (Z.abs_eq (2 ^ (prec f - 1))) by lia. lia.
    - exists m, e. split; [reflexivity|]. lia.
  Qed.

  (** Differences of numbers within a factor of two of each other are exact. *)
  Lemma sterbenz x y : representable x -> representable y -> y / 2 <= x -> x <= 2 * y -> representable (x - y).
  Proof.
    intros (m & e & Ex & Mx & Lx) (n & g & Ey & My & Ly) A B.
    assert (A' : y <= 2 * x) by (unfold Qdiv in A; change (/ 2) with (1 # 2) in A; lra).
    destruct (Z_le_gt_dec e g) as [L|L].
    - set (k := (m - n * 2 ^ (g - e))%Z).
      assert (E : x - y == inject_Z k * 2 ^ e).
      { unfold k. rewrite <- Z.add_opp_r. rewrite inject_Z_plus, inject_Z_opp, inject_Z_mult, two_Z by lia.
        assert (G : 2 ^ g == 2 ^ (g - e) * 2 ^ e) by (rewrite <- two_plus; now replace (g - e + e)%Z with g by lia).
        rewrite Ex, Ey, G. ring. }
      exists k, e. split; [exact E|]. split; [|exact Lx].
      pose proof (two_pos e) as P.
      assert (U : inject_Z k * 2 ^ e <= inject_Z (Z.abs m) * 2 ^ e).
      { rewrite <- E. assert (inject_Z m * 2 ^ e <= inject_Z (Z.abs m) * 2 ^ e).
        { apply Qmult_le_compat_r; [rewrite <- Zle_Qle; lia | lra]. } lra. }
      assert (V : - (inject_Z k * 2 ^ e) <= inject_Z (Z.abs m) * 2 ^ e).
      { rewrite <- E. assert (inject_Z m * 2 ^ e <= inject_Z (Z.abs m) * 2 ^ e).
        { apply Qmult_le_compat_r; [rewrite <- Zle_Qle; lia | lra]. } lra. }
      assert (inject_Z k <= inject_Z (Z.abs m)) as U' by nra.
      assert (inject_Z (- k) <= inject_Z (Z.abs m)) as V' by (rewrite inject_Z_opp; nra).
      rewrite <- Zle_Qle in U', V'. lia.
    - set (k := (m * 2 ^ (e - g) - n)%Z).
      assert (E : x - y == inject_Z k * 2 ^ g).
      { unfold k. rewrite <- Z.add_opp_r. rewrite inject_Z_plus, inject_Z_opp, inject_Z_mult, two_Z by lia.
        assert (G : 2 ^ e == 2 ^ (e - g) * 2 ^ g) by (rewrite <- two_plus; now replace (e - g + g)%Z with e by lia).
        rewrite Ex, Ey, G. ring. }
      exists k, g. split; [exact E|]. split; [|exact Ly].
      pose proof (two_pos g) as P.
      assert (U : inject_Z k * 2 ^ g <= inject_Z (Z.abs n) * 2 ^ g).
      { rewrite <- E. assert (inject_Z n * 2 ^ g <= inject_Z (Z.abs n) * 2 ^ g).
        { apply Qmult_le_compat_r; [rewrite <- Zle_Qle; lia | lra]. } lra. }
      assert (V : - (inject_Z k * 2 ^ g) <= inject_Z (Z.abs n) * 2 ^ g).
      { rewrite <- E. assert (inject_Z n * 2 ^ g <= inject_Z (Z.abs n) * 2 ^ g).
        { apply Qmult_le_compat_r; [rewrite <- Zle_Qle; lia | lra]. } lra. }
      assert (inject_Z k <= inject_Z (Z.abs n)) as U' by nra.
      assert (inject_Z (- k) <= inject_Z (Z.abs n)) as V' by (rewrite inject_Z_opp; nra).
      rewrite <- Zle_Qle in U', V'. lia.
  Qed.

  (** ** Signs *)
  Definition qsgn (q : Q) : Z := match Qcompare q 0 with Gt => 1 | Lt => -1 | Eq => 0 end%Z.

  Lemma qsgn_eq q r : q == r -> qsgn q = qsgn r.
  Proof. intro E. unfold qsgn. now rewrite E. Qed.

  (** The result of an operation is never of the wrong sign. *)
  Lemma to_num_sgn q : fsgn (to_num f q) = 0%Z \/ fsgn (to_num f q) = qsgn q.
  Proof.
    unfold to_num, qsgn. pose proof (two_pos (emax f)) as P.
    assert (Up : q <= 0 -> round f q <= 0).
    { intro H. apply Qle_trans with (round f 0); [now apply round_mono|]. rewrite round_zero; lra. }
    assert (Dn : 0 <= q -> 0 <= round f q).
    { intro H. apply Qle_trans with (round f 0); [|now apply round_mono]. rewrite round_zero; lra. }
    destruct (Qlt_le_dec (round f q) (2 ^ emax f)) as [A|A];
      [destruct (Qlt_le_dec (- 2 ^ emax f) (round f q)) as [B|B]|]; cbn [fsgn].
    - pose proof (Qred_correct (round f q)) as R.
      destruct (Qcompare_spec (Qred (round f q)) 0), (Qcompare_spec q 0); auto;
        exfalso; rewrite R in *; lra.
    - destruct (Qcompare_spec q 0); auto; exfalso; lra.
    - destruct (Qcompare_spec q 0); auto; exfalso; lra.
  Qed.

  Lemma to_num_zero q : q == 0 -> fsgn (to_num f q) = 0%Z.
  Proof.
    intro H. destruct (to_num_sgn q) as [E|E]; [exact E|]. rewrite E. unfold qsgn.
    destruct (Qcompare_spec q 0); [reflexivity | lra | lra].
  Qed.

  (** An order on results: NaN is below and above nothing. *)
  Definition nle (a b : num) : Prop :=
    match a, b with
    | Inf true, (Fin _ | Inf _) => True
    | (Fin _ | Inf _), Inf false => True
    | Fin x, Fin y => x <= y
    | _, _ => False
    end.
  Lemma to_num_mono q r : q <= r -> nle (to_num f q) (to_num f r).
  Proof.
    intro H. pose proof (round_mono _ _ H) as M. unfold to_num. pose proof (two_pos (emax f)).
    destruct (Qlt_le_dec (round f q) (2 ^ emax f)), (Qlt_le_dec (round f r) (2 ^ emax f));
      try destruct (Qlt_le_dec (- 2 ^ emax f) (round f q)); try destruct (Qlt_le_dec (- 2 ^ emax f) (round f r));
      cbn; auto; rewrite ?Qred_correct; try lra.
  Qed.
  Lemma fsub_sgn a b : nle a b -> (fsgn (fsub f a b) <= 0)%Z.
  Proof.
    destruct a as [x|[]|], b as [y|[]|]; cbn; try contradiction; try lia.
    intro H. destruct (to_num_sgn (x + - y)) as [E|E]; rewrite E; [lia|].
    unfold qsgn. destruct (Qcompare_spec (x + - y) 0); try lia. lra.
  Qed.
  Lemma fsub_sgn' a b : nle b a -> (0 <= fsgn (fsub f a b))%Z.
  Proof.
    destruct a as [x|[]|], b as [y|[]|]; cbn; try contradiction; try lia.
    intro H. destruct (to_num_sgn (x + - y)) as [E|E]; rewrite E; [lia|].
    unfold qsgn. destruct (Qcompare_spec (x + - y) 0); try lia. lra.
  Qed.
  Lemma fsgn_range a : (-1 <= fsgn a <= 1)%Z.
  Proof. destruct a as [x|[]|]; cbn; try lia. destruct (Qcompare x 0); lia. Qed.

  (** Products rounded, difference rounded: never the opposite sign. *)
  Lemma area_sign a b c d :
    let r := fsgn (fsub f (to_num f (a * b)) (to_num f (c * d))) in
    r = 0%Z \/ r = qsgn (a * b - c * d).
  Proof.
    cbn zeta. set (x := a * b). set (y := c * d). pose proof (fsgn_range (fsub f (to_num f x) (to_num f y))).
    unfold qsgn. destruct (Qcompare_spec (x - y) 0) as [E|E|E].
    - left. assert (x == y) as E' by lra.
      pose proof (fsub_sgn _ _ (to_num_mono x y ltac:(lra))). pose proof (fsub_sgn' _ _ (to_num_mono y x ltac:(lra))). lia.
    - pose proof (fsub_sgn _ _ (to_num_mono x y ltac:(lra))). lia.
    - pose proof (fsub_sgn' _ _ (to_num_mono y x ltac:(lra))). lia.
  Qed.

  (** Results that are numbers of the format are exact. *)
  Lemma to_num_exact q : representable q -> Qabs q < 2 ^ emax f -> exists q', to_num f q = Fin q' /\ q' == q.
  Proof.
    intros R A. pose proof (round_exact q R) as E. unfold to_num.
    apply Qabs_Qlt_condition in A.
    destruct (Qlt_le_dec (round f q) (2 ^ emax f)); [|lra].
    destruct (Qlt_le_dec (- 2 ^ emax f) (round f q)); [|lra].
    exists (Qred (round f q)). split; [reflexivity|]. now rewrite Qred_correct.
  Qed.

  (** ** Errors *)
  Lemma nearest_error q : Qabs (inject_Z (nearest q) - q) <= 1 # 2.
  Proof.
    destruct (floor_bounds q) as [A B]. apply Qabs_Qle_condition. unfold nearest.
    destruct (Qcompare_spec (q - inject_Z (Qfloor q)) (1 # 2)) as [C|C|C];
      try destruct (Z.even (Qfloor q)); rewrite ?inject_Z_plus; change (inject_Z 1) with 1; lra.
  Qed.
  Lemma round_pos_error q : 0 < q -> Qabs (round_pos f q - q) <= q * 2 ^ (- prec f) + 2 ^ emin f * (1 # 2).
  Proof.
    intro H. unfold round_pos. set (b := last_bit f q). pose proof (two_pos b) as P.
    pose proof (nearest_error (q / 2 ^ b)) as N. apply Qabs_Qle_condition in N.
    set (n := inject_Z (nearest (q / 2 ^ b))) in *.
    assert (D : q == q / 2 ^ b * 2 ^ b) by (field; apply two_nz).
    assert (E : Qabs (n * 2 ^ b - q) <= 2 ^ b * (1 # 2)).
    { apply Qabs_Qle_condition. set (w := q / 2 ^ b) in *. set (t := 2 ^ b) in *. clearbody w t n. rewrite D. nra. }
    assert (L : 2 ^ b <= 2 ^ emin f + q * 2 ^ (- prec f) * 2).
    { destruct (magnitude_spec q H) as [M _].
      assert (G : 2 ^ (magnitude q - prec f) == 2 ^ (magnitude q - 1) * (2 ^ (- prec f) * 2)).
      { change 2 with (2 ^ 1) at 4. rewrite <- !two_plus.
        now replace (magnitude q - 1 + (- prec f + 1))%Z with (magnitude q - prec f)%Z by lia. }
      pose proof (two_pos (- prec f)) as P1. pose proof (two_pos (emin f)) as P2.
      assert (2 ^ (magnitude q - 1) * (2 ^ (- prec f) * 2) <= q * (2 ^ (- prec f) * 2)) as X
        by (apply Qmult_le_compat_r; lra).
      pose proof (two_pos (magnitude q - prec f)).
      assert (0 <= q * 2 ^ (- prec f)) by (apply Qmult_le_0_compat; lra).
      unfold b, last_bit. destruct (Z.max_spec (emin f) (magnitude q - prec f)) as [[_ ->]|[_ ->]]; lra. }
    lra.
  Qed.
  Lemma round_error q : Qabs (round f q - q) <= Qabs q * 2 ^ (- prec f) + 2 ^ emin f * (1 # 2).
  Proof.
    pose proof (two_pos (emin f)) as P2. pose proof (two_pos (- prec f)).
    destruct (Q_dec q 0) as [[Q0|Q0]|Q0].
    - rewrite (round_neg_Q _ Q0). pose proof (round_pos_error (- q) ltac:(lra)) as E.
      rewrite (Qabs_neg q) by lra. rewrite <- Qabs_opp.
      assert (- (- round_pos f (- q) - q) == round_pos f (- q) - - q) as X by ring. rewrite X. exact E.
    - rewrite (round_pos_Q _ Q0), (Qabs_pos q) by lra. now apply round_pos_error.
    - rewrite (round_zero _ Q0). assert (0 - q == 0) as X by lra. rewrite X, Q0. change (Qabs 0) with 0. lra.
  Qed.
  Lemma round_to_zero q : round f q == 0 -> Qabs q <= 2 ^ emin f.
  Proof.
    intro E. pose proof (round_error q) as R. rewrite E in R.
    assert (X : 0 - q == - q) by ring. rewrite X, Qabs_opp in R.
    assert (2 ^ (- prec f) <= 1 # 2).
    { change (1 # 2) with (2 ^ (-1)). apply two_le. lia. }
    pose proof (Qabs_nonneg q). assert (Qabs q * 2 ^ (- prec f) <= Qabs q * (1 # 2)).
    { rewrite !(Qmult_comm (Qabs q)). apply Qmult_le_compat_r; assumption. }
    lra.
  Qed.
  Lemma to_num_finite q : (emin f <= emax f - 1)%Z -> Qabs q <= 2 ^ (emax f - 1) -> to_num f q = Fin (Qred (round f q)).
  Proof.
    intros He A. apply Qabs_Qle_condition in A. destruct A as [A B].
    assert (R : round f (2 ^ (emax f - 1)) == 2 ^ (emax f - 1)).
    { apply round_exact. exists 1%Z, (emax f - 1)%Z. split; [symmetry; apply Qmult_1_l|]. split; [|exact He].
      assert (2 ^ 1 <= 2 ^ prec f)%Z by (apply Z.pow_le_mono_r; lia). lia. }
    pose proof (round_mono _ _ B) as U. pose proof (round_mono _ _ A) as V. rewrite round_opp in V.
    assert (T : 2 ^ (emax f - 1) < 2 ^ emax f) by (apply Qpower_lt_compat_l; [lia | reflexivity]).
    unfold to_num. destruct (Qlt_le_dec (round f q) (2 ^ emax f)); [|lra].
    destruct (Qlt_le_dec (- 2 ^ emax f) (round f q)); [reflexivity | lra].
  Qed.
  Lemma to_num_nonzero q : fsgn (to_num f q) = 0%Z -> Qabs q <= 2 ^ emin f.
  Proof.
    intro E. apply round_to_zero. unfold to_num in E.
    destruct (Qlt_le_dec (round f q) (2 ^ emax f)); [|discriminate].
    destruct (Qlt_le_dec (- 2 ^ emax f) (round f q)); [|discriminate].
    cbn [fsgn] in E. rewrite <- (Qred_correct (round f q)).
    destruct (Qcompare_spec (Qred (round f q)) 0); [assumption | discriminate | discriminate].
  Qed.
  Lemma area_zero x y : (emin f <= emax f - 1)%Z -> Qabs x <= 2 ^ (emax f - 1) -> Qabs y <= 2 ^ (emax f - 1) ->
    fsgn (fsub f (to_num f x) (to_num f y)) = 0%Z ->
    Qabs (x - y) <= (Qabs x + Qabs y) * 2 ^ (- prec f) + 2 * 2 ^ emin f.
  Proof.
    intros He X Y E. rewrite !to_num_finite in E by assumption. unfold fsub in E. cbn [neg_num fadd] in E.
    apply to_num_nonzero in E. rewrite !Qred_correct in E.
    pose proof (round_error x) as R1. pose proof (round_error y) as R2.
    apply Qabs_Qle_condition in E. apply Qabs_Qle_condition in R1. apply Qabs_Qle_condition in R2.
    apply Qabs_Qle_condition. lra.
  Qed.
End Format.
