(** Proofs about binary_pow (property C01). *)
From Coq Require Import ZArith List Bool Lia.
From Verif Require Import Outcome NumericModel.
Import ListNotations.
Local Open Scope Z_scope.

(** Specification: product of [n] copies, in any type with a multiplication. *)
Fixpoint npow {T} (mul : T -> T -> T) (one : T) (x : T) (n : nat) : T :=
  match n with
  | O => one
  | S n => mul x (npow mul one x n)
  end.

Section Pow.
  Variable T : Type.
  Variable mul : T -> T -> T.
  Variable one : T.
  Hypothesis assoc : forall a b c, mul a (mul b c) = mul (mul a b) c.
  Hypothesis one_l : forall a, mul one a = a.
  Hypothesis one_r : forall a, mul a one = a.

  Notation "a ** n" := (npow mul one a n) (at level 30).

  Lemma npow_add a n m : a ** (n + m) = mul (a ** n) (a ** m).
  Proof.
    induction n; simpl; [now rewrite one_l|]. now rewrite IHn, assoc.
  Qed.

  Lemma npow_1 a : a ** 1 = a.
  Proof. apply one_r. Qed.

  Lemma npow_dbl a n : (mul a a) ** n = a ** (2 * n).
  Proof.
    induction n; [reflexivity|].
    replace (2 * S n)%nat with (S (S (2 * n))) by lia.
    cbn [npow]. rewrite IHn. now rewrite assoc.
  Qed.

  Lemma land1 z : 0 <= z -> (Z.land z 1 =? 1) = Z.odd z.
  Proof.
    intro. change 1 with (Z.ones 1) at 1. rewrite Z.land_ones by lia.
    change (2 ^ 1) with 2. rewrite Zmod_odd. now destruct (Z.odd z).
  Qed.

  Lemma bp_loop_ok fuel : forall res value power cnt,
    0 < power -> Z.log2 power <= Z.of_nat fuel ->
    exists c, bp_loop T mul fuel res value power cnt
              = Ok (mul res (value ** Z.to_nat power), c)
              /\ cnt < c <= cnt + 2 * Z.log2 power + 1.
  Proof.
    induction fuel as [|fuel IH]; intros res value power cnt Hp Hf.
    - assert (power < 2).
      { destruct (Z.lt_ge_cases power 2); [easy|].
        apply Z.log2_le_mono in H. change (Z.log2 2) with 1 in H. lia. }
      assert (power = 1) by lia. subst. simpl. rewrite one_r.
      eexists. split; [reflexivity|]. lia.
    - cbn [bp_loop]. destruct (Z.ltb_spec 1 power).
      + rewrite land1 by lia.
        assert (Hs : Z.shiftr power 1 = power / 2) by (now rewrite Z.shiftr_div_pow2 by lia).
        assert (Hl : Z.log2 (Z.shiftr power 1) = Z.log2 power - 1).
        { rewrite Z.log2_shiftr by lia.
          assert (Z.log2 2 <= Z.log2 power) by (apply Z.log2_le_mono; lia).
          change (Z.log2 2) with 1 in H0. lia. }
        pose proof (Z.div_mod power 2 ltac:(lia)).
        assert (0 < power / 2) by (apply Z.div_str_pos; lia).
        rewrite Zmod_odd in H0.
        set (r := if Z.odd power then mul res value else res).
        set (c1 := if Z.odd power then cnt + 1 else cnt).
        destruct (IH r (mul value value) (Z.shiftr power 1) (c1 + 1)) as (c & E & Hc);
          [lia|lia|].
        exists c. rewrite E. split.
        * f_equal. f_equal. rewrite npow_dbl. rewrite Hs.
          unfold r. destruct (Z.odd power).
          -- replace (Z.to_nat power) with (1 + 2 * Z.to_nat (power / 2))%nat by lia.
             rewrite npow_add, npow_1. now rewrite <- assoc.
          -- f_equal. f_equal. lia.
        * unfold c1 in Hc. destruct (Z.odd power); lia.
      + assert (power = 1) by lia. subst. simpl. rewrite one_r.
        eexists. split; [reflexivity|]. lia.
  Qed.

  Lemma binary_pow_cnt_ok value power :
    0 <= power ->
    exists c, binary_pow_cnt T mul one value power
              = Ok (value ** Z.to_nat power, c)
              /\ 0 <= c <= 2 * Z.log2 power + 1.
  Proof.
    intro Hp. unfold binary_pow_cnt, assert_then.
    destruct (Z.leb_spec 0 power); [|lia].
    destruct (Z.eqb_spec power 0).
    - subst. exists 0. simpl. split; [reflexivity|lia].
    - destruct (bp_loop_ok (Z.to_nat (Z.log2 power)) one value power 0) as (c & E & Hc).
      + lia.
      + rewrite Z2Nat.id; [lia|apply Z.log2_nonneg].
      + exists c. rewrite E, one_l. split; [reflexivity|lia].
  Qed.

  Lemma binary_pow_ok value power :
    0 <= power ->
    binary_pow T mul one value power = Ok (value ** Z.to_nat power).
  Proof.
    intro Hp. destruct (binary_pow_cnt_ok value power Hp) as (c & E & _).
    unfold binary_pow. now rewrite E.
  Qed.
End Pow.

Lemma binary_pow_negative T mul one value power :
  power < 0 -> binary_pow T mul one value power = AssertFail.
Proof.
  intro. unfold binary_pow, binary_pow_cnt, assert_then.
  destruct (Z.leb_spec 0 power); [lia|reflexivity].
Qed.
