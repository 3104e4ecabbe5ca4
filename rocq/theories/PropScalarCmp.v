(** C131: comparisons, differences, quotients, negation and absolute values of integers of any
    types, and comparisons with an absolute error. *)
From Coq Require Import ZArith Bool Lia List.
From Verif Require Import Outcome IntTypes IterModel IterProofs ScalarOpModel PropScalarOp ScalarCmpModel.
Import ListNotations.
Local Open Scope Z_scope.

(** *** Specification *)
(** The type of an arithmetic result: as wide as the widest operand and int; unsigned iff an
    unsigned operand is as wide as the result. *)
Definition width (x y : tval) : Z := Z.max 32 (Z.max (bits (tty x)) (bits (tty y))).
Definition unsigned_result (x y : tval) : Prop :=
  (sgn (tty x) = false /\ bits (tty x) = width x y) \/ (sgn (tty y) = false /\ bits (tty y) = width x y).
(** A negative operand that is converted to an unsigned type. *)
Definition swallowed (x y : tval) : Prop :=
  tz x < 0 /\ sgn (tty y) = false /\ 32 <= bits (tty y) /\ bits (tty x) <= bits (tty y).
Definition fits (w z : Z) : Prop := - 2 ^ (w - 1) <= z < 2 ^ (w - 1).

(** *** The common type *)
Lemma rtype_width x y : typed x -> typed y -> bits (rtype x y) = width x y.
Proof.
  intros [Cx _] [Cy _]. unfold rtype, width, common, promote, ctype in *.
  destruct (Z.ltb_spec (bits (tty x)) 32), (Z.ltb_spec (bits (tty y)) 32); cbn [bits sgn int32 Bool.eqb];
    destruct (sgn (tty x)) eqn:Sx, (sgn (tty y)) eqn:Sy; cbn [bits sgn int32 Bool.eqb]; rewrite ?Sx, ?Sy; cbn [Bool.eqb];
    repeat match goal with |- context [?a <? ?b] => destruct (Z.ltb_spec a b) | |- context [?a <=? ?b] => destruct (Z.leb_spec a b) end; cbn [bits int32]; lia.
Qed.
Lemma rtype_unsigned x y : typed x -> typed y -> (sgn (rtype x y) = false <-> unsigned_result x y).
Proof.
  intros [Cx _] [Cy _]. unfold unsigned_result, rtype, width, common, promote, ctype in *.
  destruct (Z.ltb_spec (bits (tty x)) 32), (Z.ltb_spec (bits (tty y)) 32); cbn [bits sgn int32 Bool.eqb];
    destruct (sgn (tty x)) eqn:Sx, (sgn (tty y)) eqn:Sy; cbn [bits sgn int32 Bool.eqb]; rewrite ?Sx, ?Sy; cbn [Bool.eqb];
    repeat match goal with |- context [?a <? ?b] => destruct (Z.ltb_spec a b) | |- context [?a <=? ?b] => destruct (Z.leb_spec a b) end; cbn [sgn int32]; rewrite ?Sx, ?Sy;
    (split; [intros F; try discriminate F; try (left; split; [reflexivity|lia]); try (right; split; [reflexivity|lia])
            |intros [[F E]|[F E]]; try discriminate F; try reflexivity; lia]).
Qed.
Lemma nonneg_unsigned x : typed x -> sgn (tty x) = false -> 0 <= tz x.
Proof. intros [_ I] S. unfold in_ity, ilow in I. rewrite S in I. lia. Qed.
Lemma swallowed_iff x y : typed x -> typed y -> (swallowed x y <-> tz x < 0 /\ sgn (rtype x y) = false).
Proof.
  intros X Y. rewrite rtype_unsigned by auto. unfold swallowed, unsigned_result, width. split.
  - intros (N & S & B & L). split; auto. right. split; auto. lia.
  - intros (N & [[S _]|[S E]]); [pose proof (nonneg_unsigned x X S); lia|]. repeat split; auto; lia.
Qed.
Lemma upper t w z : 0 < bits t <= w -> in_ity t z -> - 2 ^ w <= z < 2 ^ w.
Proof.
  intros B I. unfold in_ity, ilow, ihigh in I. pose proof (pow_mono (bits t) w ltac:(lia)). pose proof (pow_mono (bits t - 1) w ltac:(lia)).
  pose proof (Z.pow_pos_nonneg 2 (bits t) ltac:(lia) ltac:(lia)). destruct (sgn t); lia.
Qed.
Lemma conv_exact x y : typed x -> typed y -> ~ swallowed x y -> tconv (rtype x y) x = tz x.
Proof.
  intros X Y N. pose proof (rtype_bits x y X Y) as (B & B1 & _). unfold tconv. apply wrap_id; [lia|].
  destruct (sgn (rtype x y)) eqn:S; [now apply exact_signed|]. unfold in_ity, ilow, ihigh. rewrite S.
  assert (~ tz x < 0) by (intros L; apply N; now apply swallowed_iff). destruct X as [Cx Ix]. unfold ctype in Cx.
  pose proof (upper (tty x) (bits (rtype x y)) (tz x) ltac:(lia) Ix). lia.
Qed.
Lemma conv_swallowed x y : typed x -> typed y -> swallowed x y -> tconv (rtype x y) x = tz x + 2 ^ bits (tty y).
Proof.
  intros X Y Sw. pose proof (rtype_bits x y X Y) as (B & B1 & _). pose proof (rtype_width x y X Y) as W.
  pose proof Sw as Q. apply swallowed_iff in Q as [N S]; auto. destruct Sw as (_ & Sy & B32 & L).
  assert (E : bits (rtype x y) = bits (tty y)) by (rewrite W; unfold width; lia). unfold tconv, wrap, ilow. rewrite S, E, Z.sub_0_r, Z.add_0_r.
  rewrite <- (Z.mod_add (tz x) 1) by (apply Z.pow_nonzero; lia). rewrite Z.mul_1_l. apply Z.mod_small.
  destruct X as [Cx Ix]. unfold ctype in Cx. pose proof (upper (tty x) (bits (tty y)) (tz x) ltac:(lia) Ix). lia.
Qed.
Lemma not_both x y : typed x -> typed y -> swallowed x y -> ~ swallowed y x.
Proof. intros X Y (N & S & _) (N' & _). pose proof (nonneg_unsigned y Y S). lia. Qed.

(** *** Comparisons *)
Lemma less_conv x y : is_less x y = (tconv (rtype x y) x <? tconv (rtype x y) y). Proof. reflexivity. Qed.
Lemma equal_conv x y : is_equal x y = (tconv (rtype x y) x =? tconv (rtype x y) y). Proof. reflexivity. Qed.
Lemma compare_value x y : compare3way x y = Ok (tint (Z.sgn (tconv (rtype x y) x - tconv (rtype x y) y))).
Proof.
  unfold compare3way, is_greater. rewrite !less_conv, (rtype_comm y x). set (a := tconv _ x). set (b := tconv _ y).
  destruct (Z.ltb_spec b a), (Z.ltb_spec a b); try lia.
  - rewrite (Z.sgn_pos (a - b)) by lia. reflexivity.
  - rewrite (Z.sgn_neg (a - b)) by lia. reflexivity.
  - replace (a - b) with 0 by lia. reflexivity.
Qed.
(** All comparisons are those of the numbers unless a negative number is converted to an unsigned type. *)
Theorem C131_compare : forall x y, typed x -> typed y -> ~ swallowed x y -> ~ swallowed y x ->
  (is_less x y = true <-> tz x < tz y) /\ (is_greater x y = true <-> tz x > tz y) /\
  (is_less_or_equal x y = true <-> tz x <= tz y) /\ (is_greater_or_equal x y = true <-> tz x >= tz y) /\
  (is_equal x y = true <-> tz x = tz y) /\ (is_not_equal x y = true <-> tz x <> tz y) /\
  exists c, compare3way x y = Ok c /\ tty c = int32 /\ tz c = Z.sgn (tz x - tz y).
Proof.
  intros x y X Y N M. rewrite compare_value. unfold is_not_equal, is_less_or_equal, is_greater_or_equal, is_greater.
  rewrite !less_conv, equal_conv, (rtype_comm y x), (conv_exact x y) by auto. rewrite (rtype_comm x y), (conv_exact y x) by auto.
  rewrite !negb_true_iff, !Z.ltb_lt, !Z.ltb_ge, Z.eqb_eq, Z.eqb_neq. repeat split; try lia. eexists. repeat split.
Qed.
(** In particular for signed and narrow types, and for natural numbers. *)
Theorem C131_compare_signed : forall x y, typed x -> typed y ->
  (sgn (tty x) = true \/ bits (tty x) < 32) /\ (sgn (tty y) = true \/ bits (tty y) < 32) \/ 0 <= tz x /\ 0 <= tz y ->
  ~ swallowed x y /\ ~ swallowed y x.
Proof. intros x y X Y H. unfold swallowed. split; intros (N & S & B & L); destruct H as [[[H|H] [K|K]]|H]; try congruence; lia. Qed.
(** Otherwise 2^w is added to the negative number, w the width of the unsigned type. *)
Theorem C131_compare_unsigned : forall x y, typed x -> typed y -> swallowed x y ->
  (is_less x y = true <-> tz y - tz x > 2 ^ bits (tty y)) /\
  (is_less y x = true <-> tz y - tz x < 2 ^ bits (tty y)) /\
  (is_equal x y = true <-> tz y - tz x = 2 ^ bits (tty y)) /\ is_equal y x = is_equal x y.
Proof.
  intros x y X Y S. pose proof (not_both x y X Y S) as M. rewrite !less_conv, !equal_conv, (rtype_comm y x), (conv_swallowed x y) by auto.
  rewrite (rtype_comm x y), (conv_exact y x) by auto. rewrite !Z.ltb_lt, Z.eqb_eq. repeat split; try lia.
Qed.
(** For any types exactly one of less, equal and greater holds, compare3way tells which one, and
    the negated operations are consistent with them. *)
Theorem C131_trichotomy : forall x y,
  exists c, compare3way x y = Ok c /\ compare3way y x = Ok {| tty := int32; tz := - tz c |} /\
    (tz c = -1 /\ is_less x y = true /\ is_equal x y = false /\ is_less y x = false \/
     tz c = 0 /\ is_less x y = false /\ is_equal x y = true /\ is_less y x = false \/
     tz c = 1 /\ is_less x y = false /\ is_equal x y = false /\ is_less y x = true) /\
    is_less_or_equal x y = is_less x y || is_equal x y /\ is_greater_or_equal x y = is_less y x || is_equal x y /\ is_equal y x = is_equal x y.
Proof.
  intros x y. rewrite !compare_value. unfold is_less_or_equal, is_greater_or_equal, is_greater. rewrite !less_conv, !equal_conv, (rtype_comm y x).
  set (a := tconv _ x). set (b := tconv _ y). eexists. split; [reflexivity|]. cbn [tz tint].
  split; [rewrite <- Z.sgn_opp; do 2 f_equal; unfold tint; do 2 f_equal; lia|].
  destruct (Z.ltb_spec a b), (Z.ltb_spec b a), (Z.eqb_spec a b), (Z.eqb_spec b a); try lia; cbn [negb orb]; split; try (repeat split; reflexivity).
Qed.
(** The sign is right for all types. *)
Theorem C131_sgn : forall x, typed x -> exists s, sgn_ x = Ok s /\ tty s = int32 /\ tz s = Z.sgn (tz x).
Proof.
  intros x X. assert (Y : typed (tint 0)) by (split; [unfold ctype; cbn; lia|unfold in_ity; cbn; lia]).
  destruct (C131_compare x (tint 0) X Y) as (_ & _ & _ & _ & _ & _ & c & E & T & V).
  - intros (_ & S & _). discriminate S.
  - intros (N & _). cbn in N. lia.
  - exists c. repeat split; auto. rewrite V. f_equal. cbn. lia.
Qed.

(** *** Arithmetic *)
Lemma wrap_unsigned t z : sgn t = false -> wrap t z = z mod 2 ^ bits t.
Proof. intros S. unfold wrap, ilow. rewrite S. rewrite Z.sub_0_r. lia. Qed.
Lemma in_signed_fits t z : sgn t = true -> (in_ity t z <-> fits (bits t) z).
Proof. intros S. unfold in_ity, ilow, ihigh, fits. now rewrite S. Qed.
Lemma wrap_sub_congr t a b : 0 < bits t -> wrap t (wrap t a - wrap t b) = wrap t (a - b).
Proof. intros B. apply wrap_congr; auto. rewrite Zminus_mod, !wrap_mod by lia. now rewrite <- Zminus_mod. Qed.
Lemma iarith_cases t z : 0 < bits t ->
  (sgn t = true /\ fits (bits t) z /\ iarith t z = Ok z) \/ (sgn t = true /\ ~ fits (bits t) z /\ iarith t z = UB) \/
  (sgn t = false /\ iarith t z = Ok (z mod 2 ^ bits t)).
Proof.
  intros B. destruct (sgn t) eqn:S.
  - pose proof (in_signed_fits t z S) as F. unfold iarith. rewrite S. destruct (in_ityb t z) eqn:I.
    + apply in_ityb_spec in I. left. tauto.
    + right. left. repeat split. intros K. apply F in K. apply in_ityb_spec in K. congruence.
  - right. right. split; auto. rewrite iarith_unsigned by auto. now rewrite wrap_unsigned.
Qed.
(** A result of the type of an arithmetic operation. *)
Definition result (x y : tval) (o : outcome tval) (z : Z) : Prop :=
  (unsigned_result x y -> exists r, o = Ok r /\ bits (tty r) = width x y /\ sgn (tty r) = false /\ tz r = z mod 2 ^ width x y) /\
  (~ unsigned_result x y -> fits (width x y) z -> exists r, o = Ok r /\ bits (tty r) = width x y /\ sgn (tty r) = true /\ tz r = z) /\
  (~ unsigned_result x y -> ~ fits (width x y) z -> o = UB).
Lemma result_intro x y (z w : Z) : typed x -> typed y -> (unsigned_result x y -> w mod 2 ^ width x y = z mod 2 ^ width x y) -> (~ unsigned_result x y -> w = z) ->
  result x y (do v <- iarith (rtype x y) w; Ok {| tty := rtype x y; tz := v |}) z.
Proof.
  intros X Y U S. pose proof (rtype_width x y X Y) as W. pose proof (rtype_unsigned x y X Y) as RU. pose proof (rtype_bits x y X Y) as (B & _).
  unfold result. rewrite <- RU in *. rewrite <- W in *. split; [|split].
  - intros E. rewrite iarith_unsigned by (auto; lia). cbn [bind]. eexists. split; [reflexivity|]. cbn [tty tz]. rewrite wrap_unsigned by auto. auto.
  - intros E F. rewrite (S E). destruct (sgn (rtype x y)) eqn:Q; [|congruence]. rewrite iarith_in by now apply in_signed_fits. cbn [bind]. eexists. split; [reflexivity|]. auto.
  - intros E F. rewrite (S E). destruct (sgn (rtype x y)) eqn:Q; [|congruence]. rewrite iarith_signed; auto. now rewrite in_signed_fits.
Qed.
Lemma conv_signed x y : typed x -> typed y -> ~ unsigned_result x y -> tconv (rtype x y) x = tz x /\ tconv (rtype x y) y = tz y.
Proof.
  intros X Y U. assert (S : sgn (rtype x y) = true) by (destruct (sgn (rtype x y)) eqn:S; auto; now apply rtype_unsigned in S).
  destruct (exact_signed x y X Y S). pose proof (rtype_bits x y X Y) as (B & _). unfold tconv. now rewrite !wrap_id by (auto; lia).
Qed.
Lemma conv_mod x y : typed x -> typed y -> unsigned_result x y -> tconv (rtype x y) x = tz x mod 2 ^ width x y /\ tconv (rtype x y) y = tz y mod 2 ^ width x y.
Proof. intros X Y U. apply rtype_unsigned in U; auto. unfold tconv. rewrite !wrap_unsigned by auto. now rewrite rtype_width. Qed.

(** The difference: exact if the common type is signed and it fits, undefined if it does not fit,
    modulo 2^width otherwise. *)
Theorem C131_subtract : forall x y, typed x -> typed y -> result x y (subtract x y) (tz x - tz y).
Proof.
  intros x y X Y. apply result_intro; auto.
  - intros U. fold (rtype x y). destruct (conv_mod x y X Y U) as [-> ->]. now rewrite <- Zminus_mod.
  - intros U. fold (rtype x y). destruct (conv_signed x y X Y U) as [-> ->]. reflexivity.
Qed.
Theorem C131_squared : forall x, typed x -> result x x (squared x) (tz x ^ 2).
Proof.
  intros x X. replace (tz x ^ 2) with (tz x * tz x) by lia. apply result_intro; auto.
  - intros U. fold (rtype x x). destruct (conv_mod x x X X U) as [-> _]. now rewrite <- Zmult_mod.
  - intros U. fold (rtype x x). destruct (conv_signed x x X X U) as [-> _]. reflexivity.
Qed.
Lemma rtype_self x : rtype x x = promote (tty x).
Proof. apply common_refl. Qed.
Theorem C131_negate : forall x, typed x -> result x x (negate x) (- tz x).
Proof.
  intros x X. unfold negate, tneg. rewrite <- rtype_self. apply result_intro; auto.
  - intros U. destruct (conv_mod x x X X U) as [-> _]. rewrite <- (Z.sub_0_l (_ mod _)), Zminus_mod, Z.mod_mod by (apply Z.pow_nonzero; unfold width; lia).
    now rewrite <- Zminus_mod, Z.sub_0_l.
  - intros U. destruct (conv_signed x x X X U) as [-> _]. reflexivity.
Qed.
Lemma conv_zero x y : typed x -> typed y -> (tconv (rtype x y) y = 0 <-> tz y = 0).
Proof.
  intros X Y. rewrite rtype_comm. destruct (Z.lt_ge_cases (tz y) 0) as [N|N].
  - destruct (sgn (rtype y x)) eqn:S.
    + rewrite conv_exact; auto; [tauto|]. intros Q. apply swallowed_iff in Q; auto. destruct Q as [_ Q]. congruence.
    + assert (Q : swallowed y x) by now apply swallowed_iff. rewrite conv_swallowed by auto. destruct Q as (_ & Sx & B & L).
      destruct Y as [Cy Iy]. unfold ctype in Cy. unfold in_ity, ilow, ihigh in Iy.
      pose proof (pow_mono (bits (tty y)) (bits (tty x)) ltac:(lia)). pose proof (Z.pow_lt_mono_r 2 (bits (tty y) - 1) (bits (tty y)) ltac:(lia) ltac:(lia) ltac:(lia)).
      destruct (sgn (tty y)); lia.
  - rewrite conv_exact; auto; [tauto|]. intros (Q & _). lia.
Qed.
(** The quotient is truncated towards zero; undefined for the divisor 0 and if it does not fit. *)
Theorem C131_divide : forall x y, typed x -> typed y ->
  (tz y = 0 -> divide x y = UB) /\
  (tz y <> 0 -> ~ unsigned_result x y -> result x y (divide x y) (tz x ÷ tz y)) /\
  (tz y <> 0 -> ~ unsigned_result x y -> (divide x y = UB <-> tz x = - 2 ^ (width x y - 1) /\ tz y = -1)) /\
  (tz y <> 0 -> unsigned_result x y -> exists r, divide x y = Ok r /\ bits (tty r) = width x y /\ sgn (tty r) = false /\
     tz r = (tz x mod 2 ^ width x y) / (tz y mod 2 ^ width x y)).
Proof.
  intros x y X Y. pose proof (conv_zero x y X Y) as Z0. pose proof (rtype_bits x y X Y) as (B & _). pose proof (rtype_width x y X Y) as W.
  assert (R : tz y <> 0 -> ~ unsigned_result x y -> result x y (divide x y) (tz x ÷ tz y)).
  { intros N U. unfold divide, tdiv. fold (rtype x y). destruct (Z.eqb_spec (tconv (rtype x y) y) 0) as [E|_]; [tauto|].
    apply result_intro; auto; fold (rtype x y); [tauto|]. intros _. now destruct (conv_signed x y X Y U) as [-> ->]. }
  split; [|split; [exact R|split]].
  - intros E. apply Z0 in E. unfold divide, tdiv. fold (rtype x y). now rewrite E.
  - intros N U. destruct (R N U) as (_ & R1 & R2). assert (S : sgn (rtype x y) = true) by (destruct (sgn (rtype x y)) eqn:S; auto; now apply rtype_unsigned in S).
    destruct (exact_signed x y X Y S) as [Ix Iy]. apply in_signed_fits in Ix, Iy; auto. rewrite W in Ix, Iy.
    set (M := 2 ^ (width x y - 1)) in *. assert (M1 : 1 < M) by (unfold M; pose proof (pow_mono 1 (width x y - 1) ltac:(lia)); lia).
    assert (F : fits (width x y) (tz x ÷ tz y) <-> ~ (tz x = - M /\ tz y = -1)).
    { unfold fits in Ix, Iy |- *. fold M in Ix, Iy |- *. split.
      - intros F [E1 E2]. rewrite E1, E2 in F. change (-1) with (- (1)) in F. rewrite Z.quot_opp_opp, Z.quot_1_r in F by lia. lia.
      - intros F. destruct (Z.eq_dec (tz y) (-1)) as [E|NE].
        + rewrite E. change (-1) with (- (1)). rewrite Z.quot_opp_r, Z.quot_1_r by lia. lia.
        + assert (A : Z.abs (tz x ÷ tz y) <= Z.abs (tz x)) by (rewrite <- Z.quot_abs by lia; apply Z.quot_le_upper_bound; nia).
          destruct (Z.eq_dec (tz x) (- M)) as [EM|]; [|lia]. destruct (Z.eq_dec (tz y) 1) as [E1|N1]; [rewrite E1, Z.quot_1_r; lia|].
          assert (Z.abs (tz x ÷ tz y) < M); [|lia]. rewrite <- Z.quot_abs by lia. apply Z.quot_lt_upper_bound; nia. }
    split.
    + intros E. destruct (Z.eq_dec (tz x) (- M)) as [A|A], (Z.eq_dec (tz y) (-1)) as [A'|A']; auto;
        (destruct R1 as (r & Er & _); [exact U|apply F; tauto|congruence]).
    + intros H. apply R2; auto. tauto.
  - intros N U. unfold divide, tdiv. fold (rtype x y). destruct (Z.eqb_spec (tconv (rtype x y) y) 0) as [E|NE]; [tauto|].
    unfold tbin. fold (rtype x y). pose proof U as S. apply rtype_unsigned in S; auto. rewrite iarith_unsigned by (auto; lia). cbn [bind].
    eexists. split; [reflexivity|]. cbn [tty tz]. split; [exact W|]. split; [exact S|]. rewrite wrap_unsigned, W by auto.
    destruct (conv_mod x y X Y U) as [Ex Ey]. rewrite Ex, Ey in *. pose proof (Z.mod_pos_bound (tz x) (2 ^ width x y) ltac:(apply Z.pow_pos_nonneg; lia)).
    pose proof (Z.mod_pos_bound (tz y) (2 ^ width x y) ltac:(apply Z.pow_pos_nonneg; lia)). rewrite Z.quot_div_nonneg by lia. apply Z.mod_small.
    split; [apply Z.div_pos; lia|]. apply Z.div_lt_upper_bound; nia.
Qed.

(** The absolute value; the least number of a signed type has none: undefined from int on, and
    the number itself for narrow types. *)
Theorem C131_abs : forall x, typed x ->
  ((exists r, abs x = Ok r /\ tty r = tty x /\ tz r = Z.abs (tz x)) <-> sgn (tty x) = false \/ tz x <> - 2 ^ (bits (tty x) - 1)) /\
  (sgn (tty x) = true -> tz x = - 2 ^ (bits (tty x) - 1) -> 32 <= bits (tty x) -> abs x = UB) /\
  (sgn (tty x) = true -> tz x = - 2 ^ (bits (tty x) - 1) -> bits (tty x) < 32 -> abs x = Ok x).
Proof.
  intros x [C I]. unfold ctype in C. assert (P0 : 0 < 2 ^ (bits (tty x) - 1)) by (apply Z.pow_pos_nonneg; lia).
  destruct (sgn (tty x)) eqn:S.
  2:{ split; [|split; discriminate]. split; [now left|]. intros _. unfold abs. rewrite S. cbn [negb]. exists x. repeat split.
      unfold in_ity, ilow in I. rewrite S in I. lia. }
  pose proof I as F. apply in_signed_fits in F; auto. unfold fits in F.
  destruct (promote_ctype _ C) as (P & P32 & Pb). pose proof (promote_in _ _ C I) as Ip. unfold ctype in P.
  assert (Sp : sgn (promote (tty x)) = true) by (unfold promote; destruct (bits (tty x) <? 32); auto).
  assert (E : abs x = do z <- iarith (promote (tty x)) (Z.abs (tz x)); Ok {| tty := tty x; tz := wrap (tty x) z |}).
  { unfold abs. rewrite S. cbn [negb]. unfold std_abs, tconv. rewrite wrap_id by (auto; lia). now destruct (iarith _ _). }
  assert (G : tz x <> - 2 ^ (bits (tty x) - 1) -> abs x = Ok {| tty := tty x; tz := Z.abs (tz x) |}).
  { intros N. assert (J : in_ity (tty x) (Z.abs (tz x))) by (apply in_signed_fits; auto; unfold fits; lia).
    rewrite E, iarith_in by (apply promote_in; auto). cbn [bind]. now rewrite wrap_id by (auto; lia). }
  assert (U : tz x = - 2 ^ (bits (tty x) - 1) -> 32 <= bits (tty x) -> abs x = UB).
  { intros N B. rewrite E. rewrite promote_id by lia. rewrite iarith_signed; auto. rewrite in_signed_fits by auto. unfold fits. lia. }
  assert (N8 : tz x = - 2 ^ (bits (tty x) - 1) -> bits (tty x) < 32 -> abs x = Ok x).
  { intros N B. rewrite E. rewrite iarith_in.
    - cbn [bind]. f_equal. destruct x as [t z]. cbn [tty tz] in *. f_equal. rewrite <- (wrap_id t z) at 2 by (auto; lia). apply wrap_congr; [lia|].
      rewrite N, Z.abs_opp, Z.abs_eq by lia. replace (2 ^ (bits t - 1)) with (- 2 ^ (bits t - 1) + 1 * 2 ^ bits t) at 1.
      + apply Z.mod_add. apply Z.pow_nonzero; lia.
      + replace (bits t) with (1 + (bits t - 1)) at 2 by lia. rewrite Z.pow_add_r by lia. change (2 ^ 1) with 2. lia.
    - unfold promote. destruct (Z.ltb_spec (bits (tty x)) 32); [|lia]. apply in_signed_fits; [reflexivity|]. unfold fits. cbn [bits int32].
      pose proof (Z.pow_lt_mono_r 2 (bits (tty x) - 1) 31 ltac:(lia) ltac:(lia) ltac:(lia)). change (32 - 1) with 31. lia. }
  split; [|split; auto]. split.
  - intros (r & Er & _ & V). right. intros N. destruct (Z.lt_ge_cases (bits (tty x)) 32).
    + rewrite N8 in Er by auto. injection Er as <-. lia.
    + rewrite U in Er by auto. discriminate.
  - intros [D|N]; [discriminate|]. eexists. split; [now apply G|]. auto.
Qed.

(** *** Undoing an addition: l += r; l -= r restores l for any types, unless undefined. *)
Theorem C131_undo : forall x y s d, typed x -> typed y -> into_first Add x y = Ok s -> subtract_into s y = Ok d -> d = x.
Proof.
  intros x y s d X Y A D. pose proof (rtype_bits x y X Y) as (B & B1 & _). unfold into_first in A. cbn [evaluate] in A.
  unfold tbin in A. fold (rtype x y) in A. destruct (iarith (rtype x y) _) as [z| | | |] eqn:I; try discriminate. cbn [bind] in A. injection A as <-.
  apply iarith_wrap in I as [I _]; [|lia]. unfold tconv in I. rewrite wrap_add_congr in I by lia.
  unfold subtract_into, subtract, tbin in D. cbn [as_ tty tz] in D. fold (rtype x y) in D.
  destruct (iarith (rtype x y) _) as [w| | | |] eqn:J; try discriminate. cbn [bind] in D. injection D as <-.
  apply iarith_wrap in J as [J _]; [|lia]. unfold tconv in J. cbn [tz] in J. rewrite wrap_sub_congr in J by lia. unfold as_. cbn [tty tz].
  destruct x as [t a]. cbn [tty tz] in *. f_equal. destruct X as [C Ia]. cbn [tty tz] in *. unfold ctype in C.
  assert (Q : forall c, wrap t (wrap t c - tz y) = wrap t (c - tz y)) by (intros c; rewrite <- wrap_sub_congr, wrap_wrap, wrap_sub_congr by lia; reflexivity).
  cbn [as_ tz tty] in J. rewrite J, (wrap_wrap_congr t) by lia. rewrite Q, I. rewrite <- Q, (wrap_wrap_congr t) by lia. rewrite Q.
  replace (a + tz y - tz y) with a by lia. now apply wrap_id; [lia|].
Qed.

(** *** Comparisons with an absolute error *)
(** Right for signed results if the difference fits and is not the least number. *)
Theorem C131_within : forall e x y, typed e -> typed x -> typed y -> ~ unsigned_result x y -> 0 <= tz e ->
  - 2 ^ (width x y - 1) < tz x - tz y < 2 ^ (width x y - 1) ->
  exists q, equal_within e x y = Ok q /\ (q = true <-> Z.abs (tz x - tz y) <= tz e).
Proof.
  intros e x y E X Y U Ne F. destruct (C131_subtract x y X Y) as (_ & S & _). destruct (S U) as (d & Ed & Wd & Sd & Vd); [unfold fits; lia|].
  assert (W : 32 <= width x y <= 64) by (unfold width; destruct X as [X _], Y as [Y _]; unfold ctype in *; lia).
  assert (D : typed d) by (split; [unfold ctype; lia|apply in_signed_fits; auto; unfold fits; rewrite Wd; lia]).
  destruct (C131_abs d D) as ((_ & A) & _). destruct A as (a & Ea & Ta & Va); [right; rewrite Wd; lia|].
  assert (At : typed a) by (split; [rewrite Ta; apply D|rewrite Ta; apply in_signed_fits; auto; unfold fits; rewrite Wd; lia]).
  unfold equal_within. rewrite Ed. cbn [bind]. rewrite Ea. cbn [bind]. eexists. split; [reflexivity|].
  destruct (C131_compare_signed a e At E) as [N M]; [right; lia|]. destruct (C131_compare a e At E N M) as (_ & _ & L & _). rewrite L, Va, Vd. tauto.
Qed.
Theorem C131_less_within : forall e x y, typed e -> typed x -> typed y -> ~ unsigned_result y x -> 0 <= tz e ->
  sgn (tty e) = true \/ bits (tty e) < width y x -> fits (width y x) (tz y - tz x) ->
  exists q, less_within e x y = Ok q /\ (q = true <-> tz x + tz e < tz y).
Proof.
  intros e x y E X Y U Ne Se F. destruct (C131_subtract y x Y X) as (_ & S & _). destruct (S U F) as (d & Ed & Wd & Sd & Vd).
  assert (W : 32 <= width y x <= 64) by (unfold width; destruct X as [X _], Y as [Y _]; unfold ctype in *; lia).
  assert (D : typed d) by (split; [unfold ctype; lia|apply in_signed_fits; auto; now rewrite Wd, Vd]).
  unfold less_within. rewrite Ed. cbn [bind]. eexists. split; [reflexivity|].
  assert (N : ~ swallowed e d) by (intros (Q & _); lia).
  assert (M : ~ swallowed d e) by (intros (_ & Q & _ & L); destruct Se; [congruence|lia]).
  destruct (C131_compare e d E D N M) as (L & _). rewrite L, Vd. lia.
Qed.

(** *** Findings *)
Definition int (z : Z) : tval := {| tty := int32; tz := z |}.
Definition unsigned (z : Z) : tval := {| tty := uint32; tz := z |}.
Definition long (z : Z) : tval := {| tty := int64; tz := z |}.
Ltac typed := split; [unfold ctype; cbn; lia | unfold in_ity; cbn; lia].
(** is_less is no order if types are mixed: there is a cycle. *)
Theorem C131_order_refuted : exists a b c, typed a /\ typed b /\ typed c /\ is_less a b = true /\ is_less b c = true /\ is_less c a = true.
Proof. exists (int (-1)), (int 0), (unsigned 1). repeat split; try (unfold ctype; cbn; lia); unfold in_ity; cbn; lia. Qed.
(** is_equal is not transitive. *)
Theorem C131_equal_refuted : exists a b c, typed a /\ typed b /\ typed c /\ is_equal a b = true /\ is_equal b c = true /\ is_equal a c = false.
Proof. exists (int (-1)), (unsigned 4294967295), (long 4294967295). repeat split; try (unfold ctype; cbn; lia); unfold in_ity; cbn; lia. Qed.
(** compare3way of a negative and a natural number. *)
Theorem C131_compare_refuted : exists a b, typed a /\ typed b /\ tz a < tz b /\ compare3way a b = Ok (tint 1).
Proof. exists (int (-1)), (unsigned 1). split; [typed|]. split; [typed|]. split; [cbn; lia|reflexivity]. Qed.
(** An absolute value can be negative. *)
Theorem C131_abs_refuted : exists x r, typed x /\ abs x = Ok r /\ tz r < 0.
Proof. exists {| tty := int8; tz := -128 |}, {| tty := int8; tz := -128 |}. split; [typed|]. split; [reflexivity|cbn; lia]. Qed.
(** A difference is not the sum with the negated number. *)
Theorem C131_negate_refuted : exists x y n, typed x /\ typed y /\ negate y = Ok n /\
  subtract x y = Ok (long 0) /\ evaluate Add x n = Ok (long 4294967296).
Proof. exists (long 1), (unsigned 1), (unsigned 4294967295). split; [typed|]. split; [typed|]. repeat split. Qed.
(** A quotient of a negative number can be positive. *)
Theorem C131_divide_refuted : exists x y r, typed x /\ typed y /\ divide x y = Ok r /\ tz x < 0 < tz y /\ tz r = 2147483645.
Proof. exists (int (-6)), (unsigned 2), (unsigned 2147483645). split; [typed|]. split; [typed|]. split; [reflexivity|]. cbn. lia. Qed.
(** With an absolute error equality of unsigned numbers is not symmetric, and a greater number is less. *)
Theorem C131_within_refuted : exists e x y, typed e /\ typed x /\ typed y /\ Z.abs (tz x - tz y) <= tz e /\
  equal_within e x y = Ok true /\ equal_within e y x = Ok false /\ less_within e x y = Ok true /\ less_within e y x = Ok false /\ tz y < tz x.
Proof. exists (unsigned 2), (unsigned 5), (unsigned 3). split; [typed|]. split; [typed|]. split; [typed|]. repeat split; cbn; lia. Qed.

(** *** Cases *)
Example C131_case_mixed : is_less (int (-1)) (unsigned 1) = false /\ is_less (int (-5)) (unsigned 4294967295) = true /\
  is_less (int (-1)) {| tty := uint8; tz := 1 |} = true /\ is_less (long (-1)) (unsigned 1) = true /\ swallowed (int (-1)) (unsigned 1) /\ ~ swallowed (long (-1)) (unsigned 1).
Proof. repeat split; try (cbn; lia); try (unfold swallowed; cbn; lia). Qed.
Example C131_case_arith : subtract (int (-7)) (int 5) = Ok (int (-12)) /\ subtract (unsigned 3) (int 5) = Ok (unsigned 4294967294) /\
  subtract (int (-2147483648)) (int 1) = UB /\ divide (int (-7)) (int 2) = Ok (int (-3)) /\ divide (int 1) (int 0) = UB /\ divide (int (-2147483648)) (int (-1)) = UB /\
  negate {| tty := uint8; tz := 200 |} = Ok (int (-200)) /\ negate (unsigned 1) = Ok (unsigned 4294967295) /\ negate (int (-2147483648)) = UB /\
  squared {| tty := {| bits := 16; sgn := false |}; tz := 65535 |} = UB /\ squared (unsigned 65536) = Ok (unsigned 0) /\ squared (int (-9)) = Ok (int 81).
Proof. repeat split. Qed.
Example C131_case_abs : abs (int (-2147483648)) = UB /\ abs (int (-5)) = Ok (int 5) /\ abs (unsigned 4294967295) = Ok (unsigned 4294967295) /\
  abs {| tty := int8; tz := -127 |} = Ok {| tty := int8; tz := 127 |}.
Proof. repeat split. Qed.
Example C131_case_sgn : sgn_ (unsigned 4294967295) = Ok (int 1) /\ sgn_ {| tty := int8; tz := -1 |} = Ok (int (-1)) /\ sgn_ (long 0) = Ok (int 0).
Proof. repeat split. Qed.
Example C131_case_undo : exists s, into_first Add {| tty := int8; tz := 100 |} (int 100) = Ok s /\ tz s = -56 /\ subtract_into s (int 100) = Ok {| tty := int8; tz := 100 |}.
Proof. eexists. repeat split. Qed.
Example C131_case_within : equal_within (int 2) (int (-1)) (int 1) = Ok true /\ equal_within (int 2) (int (-2)) (int 1) = Ok false /\
  less_within (int 2) (int (-2)) (int 1) = Ok true /\ less_within (int 2) (int (-1)) (int 1) = Ok false.
Proof. repeat split. Qed.

Print Assumptions C131_compare.
Print Assumptions C131_compare_signed.
Print Assumptions C131_compare_unsigned.
Print Assumptions C131_trichotomy.
Print Assumptions C131_sgn.
Print Assumptions C131_subtract.
Print Assumptions C131_squared.
Print Assumptions C131_negate.
Print Assumptions C131_divide.
Print Assumptions C131_abs.
Print Assumptions C131_undo.
Print Assumptions C131_within.
Print Assumptions C131_less_within.
Print Assumptions C131_order_refuted.
Print Assumptions C131_equal_refuted.
Print Assumptions C131_compare_refuted.
Print Assumptions C131_abs_refuted.
Print Assumptions C131_negate_refuted.
Print Assumptions C131_divide_refuted.
Print Assumptions C131_within_refuted.
