(** Further theorems: C05, C07, C36, C53 and properties C73, C74. *)
From Coq Require Import ZArith List Bool Lia.
From Verif Require Import Outcome IntTypes NumericModel RandomProofs StringModel RangeModel RangeProofs
  ContainerModel ContainerProofs TensorProofs PropContainer.
Import ListNotations.
Local Open Scope Z_scope.

(** ** C05: the modulus of a static ring *)

(** A stored modulus 0 stands for 2^width (C02-C04). *)
Definition effective_modulus (w m : Z) : Z := if m =? 0 then 2 ^ w else m.

Theorem C05_static_modulus Mod : 1 <= Mod < 2 ^ 64 ->
  effective_modulus (static_ring_width Mod) (static_ring_mod Mod) = Mod
  /\ (static_ring_width Mod = 32 <-> Mod <= 2 ^ 32)
  /\ (static_ring_width Mod = 64 <-> 2 ^ 32 < Mod).
Proof.
  intro H. unfold effective_modulus, static_ring_mod, static_ring_width, NumericModel.wrap.
  destruct (Z.ltb_spec (2 ^ 32) Mod) as [L|L].
  - rewrite Z.mod_small by lia. destruct (Z.eqb_spec Mod 0); lia.
  - destruct (Z.eq_dec Mod (2 ^ 32)) as [->|N].
    + rewrite Z_mod_same_full. cbn [Z.eqb]. repeat split; lia.
    + rewrite Z.mod_small by lia. destruct (Z.eqb_spec Mod 0); lia.
Qed.
Print Assumptions C05_static_modulus.
Example C05_static_modulus_case :
  static_ring_mod (2 ^ 32) = 0 /\ static_ring_mod 1000000007 = 1000000007
  /\ static_ring_width (2 ^ 32 + 1) = 64.
Proof. vm_compute. auto. Qed.

(** ** C07: the output *)

(** The output is the sum of the old words plus the carry of the sum of the new ones. *)
Theorem C07_xoroshiro_output x y : word64p (x, y) ->
  let '((x', y'), r) := xoroshiro_step (x, y) in
  0 <= r < 2 ^ 64 /\ exists q, r + q * 2 ^ 64 = x + y + (x' + y') / 2 ^ 64.
Proof.
  intro W. pose proof (xoroshiro_next_word (x, y) W) as W'.
  unfold xoroshiro_next in W'.
  destruct (xoroshiro_step (x, y)) as [[x' y'] r] eqn:E. cbn [fst] in W'.
  unfold xoroshiro_step in E. injection E as Ex Ey Er. rewrite Ex, Ey in Er.
  destruct W' as [Wx Wy]. cbn [fst snd] in Wx, Wy. unfold word64 in Wx, Wy.
  unfold NumericModel.wrap in Er.
  assert (C : (if (x' + y') mod 2 ^ 64 <? y' then 1 else 0) = (x' + y') / 2 ^ 64).
  { destruct (Z.lt_ge_cases (x' + y') (2 ^ 64)).
    - rewrite Z.mod_small, Z.div_small by lia. destruct (Z.ltb_spec (x' + y') y'); lia.
    - replace (x' + y') with ((x' + y' - 2 ^ 64) + 1 * 2 ^ 64) by lia.
      rewrite Z_mod_plus_full, Z_div_plus_full by lia.
      rewrite Z.mod_small, Z.div_small by lia. destruct (Z.ltb_spec (x' + y' - 2 ^ 64) y'); lia. }
  rewrite C, Zplus_mod_idemp_l in Er. subst r.
  split; [apply Z.mod_pos_bound; lia|].
  exists ((x + y + (x' + y') / 2 ^ 64) / 2 ^ 64).
  pose proof (Z.div_mod (x + y + (x' + y') / 2 ^ 64) (2 ^ 64)). lia.
Qed.
Print Assumptions C07_xoroshiro_output.
Example C07_output_case :
  word64p (xoroshiro_run 3 xoroshiro_init)
  /\ xoroshiro_step (xoroshiro_run 3 xoroshiro_init)
     = ((4629350529471307328, 14114293135337244980), 13204927273741956434).
Proof. vm_compute. repeat split; discriminate. Qed.

(** ** C73: character classes *)
Theorem C73_classes c : -128 <= c < 128 ->
  (is_digit c = true <-> 48 <= c <= 57)
  /\ (is_lower c = true <-> 97 <= c <= 122)
  /\ (is_upper c = true <-> 65 <= c <= 90)
  /\ (is_alpha c = true <-> 65 <= c <= 90 \/ 97 <= c <= 122)
  /\ (is_alphanumeric c = true <-> is_alpha c = true \/ is_digit c = true)
  /\ (is_space c = true <-> In c [9; 10; 11; 12; 13; 32]).
Proof.
  intro H.
  assert (R : forall k n, 0 <= k -> 0 < n -> k + n <= 128 -> ((c - k) mod 256 <? n) = true <-> k <= c < k + n).
  { intros k n Hk Hn Hs. rewrite Z.ltb_lt. destruct (Z.lt_ge_cases c k).
    - replace (c - k) with (c - k + 256 + (-1) * 256) by lia. rewrite Z_mod_plus_full, Z.mod_small by lia. lia.
    - rewrite Z.mod_small by lia. lia. }
  split; [unfold is_digit; rewrite R; lia|].
  split; [unfold is_lower; rewrite R; lia|].
  split; [unfold is_upper; rewrite R; lia|].
  split.
  { unfold is_alpha, is_upper.
    assert (K : Z.ldiff c 32 = c \/ (Z.ldiff c 32 = c - 32 /\ Z.testbit c 5 = true)).
    { destruct (Z.testbit c 5) eqn:B.
      - right. split; [|reflexivity].
        assert (Z.land c 32 = 32) as L.
        { apply Z.bits_inj'. intros n Hn. rewrite Z.land_spec.
          change 32 with (2 ^ 5). rewrite Z.pow2_bits_eqb by lia.
          destruct (Z.eqb_spec 5 n) as [<-|]; [now rewrite B|apply andb_false_r]. }
        pose proof (Z.sub_nocarry_ldiff c 32) as S. rewrite S; [reflexivity|].
        apply Z.bits_inj'. intros n Hn. rewrite Z.ldiff_spec, Z.bits_0.
        change 32 with (2 ^ 5). rewrite Z.pow2_bits_eqb by lia.
        destruct (Z.eqb_spec 5 n) as [<-|]; [now rewrite B|reflexivity].
      - left. apply Z.bits_inj'. intros n Hn. rewrite Z.ldiff_spec.
        change 32 with (2 ^ 5). rewrite Z.pow2_bits_eqb by lia.
        destruct (Z.eqb_spec 5 n) as [<-|]; [now rewrite B|apply andb_true_r]. }
    assert (B5 : Z.testbit c 5 = true <-> (c / 32) mod 2 = 1).
    { rewrite Z.testbit_true by lia. change (2 ^ 5) with 32. reflexivity. }
    assert (D : c / 32 = -4 \/ c / 32 = -3 \/ c / 32 = -2 \/ c / 32 = -1
              \/ c / 32 = 0 \/ c / 32 = 1 \/ c / 32 = 2 \/ c / 32 = 3).
    { assert (-4 <= c / 32 < 4) by (split; [apply Z.div_le_lower_bound|apply Z.div_lt_upper_bound]; lia). lia. }
    assert (K2 : Z.testbit c 5 = false -> Z.ldiff c 32 = c).
    { intro B. destruct K as [K|[_ K]]; [exact K|congruence]. }
    assert (K3 : Z.testbit c 5 = true -> Z.ldiff c 32 = c - 32).
    { intro B. destruct K as [K|[K _]]; [|exact K]. exfalso.
      assert (X : Z.testbit (Z.ldiff c 32) 5 = false) by (rewrite Z.ldiff_spec, B; reflexivity). congruence. }
    pose proof (Z.div_mod c 32 ltac:(lia)). pose proof (Z.mod_pos_bound c 32 ltac:(lia)).
    destruct (Z.testbit c 5) eqn:B.
    - rewrite K3 by reflexivity. assert (B5' := proj1 B5 eq_refl). clear K K2 K3 B5.
      assert (M : c - 32 < 0 \/ 0 <= c - 32 < 128) by lia.
      rewrite Z.ltb_lt.
      assert ((c - 32 - 65) mod 256 = if c - 32 <? 65 then c - 32 - 65 + 256 else c - 32 - 65) as ->.
      { destruct (Z.ltb_spec (c - 32) 65).
        - replace (c - 32 - 65) with (c - 32 - 65 + 256 + (-1) * 256) at 1 by lia.
          rewrite Z_mod_plus_full, Z.mod_small by lia. lia.
        - rewrite Z.mod_small by lia. lia. }
      destruct (Z.ltb_spec (c - 32) 65); destruct D as [D|[D|[D|[D|[D|[D|[D|D]]]]]]]; rewrite D in *; try discriminate; lia.
    - rewrite K2 by reflexivity. rewrite R by lia.
      assert (B5' : (c / 32) mod 2 <> 1) by (intro X; apply B5 in X; discriminate).
      destruct D as [D|[D|[D|[D|[D|[D|[D|D]]]]]]]; rewrite D in *; try (now destruct B5'); lia. }
  split; [unfold is_alphanumeric; now rewrite orb_true_iff|].
  unfold is_space. rewrite orb_true_iff, R, Z.eqb_eq by lia. cbn [In]. lia.
Qed.
Print Assumptions C73_classes.
Example C73_case : is_alpha 122 = true /\ is_alpha 91 = false /\ is_alpha (-31) = false /\ is_space 11 = true.
Proof. vm_compute. auto. Qed.

(** ** C74: equality of ranges *)
Theorem C74_range_equal (A B : Type) (eq : A -> B -> bool) l r :
  is_equal_range eq l r = true <->
  length l = length r /\ forall i x y, nth_error l i = Some x -> nth_error r i = Some y -> eq x y = true.
Proof.
  revert r. induction l as [|x l IH]; intros [|y r]; cbn [is_equal_range length].
  - split; [|reflexivity]. intros _. split; [reflexivity|]. intros [|i]; discriminate.
  - split; [discriminate|]. intros [E _]. discriminate.
  - split; [discriminate|]. intros [E _]. discriminate.
  - rewrite andb_true_iff, IH. split.
    + intros [E [L H]]. split; [now f_equal|]. intros [|i] u v; cbn [nth_error]; [|apply H].
      intros [= <-] [= <-]. exact E.
    + intros [L H]. split; [now apply (H O)|]. split; [now injection L|]. intros i. exact (H (S i)).
Qed.
Print Assumptions C74_range_equal.
(** With an equality of elements it is the equality of sequences. *)
Theorem C74_range_equal_sequences (A : Type) (eq : A -> A -> bool) l r :
  (forall x y, eq x y = true <-> x = y) -> (is_equal_range eq l r = true <-> l = r).
Proof.
  intro E. rewrite C74_range_equal. split.
  - intros [L H]. apply ListLemmas.list_ext_nth. intro i.
    destruct (nth_error l i) as [x|] eqn:X, (nth_error r i) as [y|] eqn:Y; auto.
    + f_equal. apply E. eapply H; eauto.
    + apply nth_error_None in Y. assert (nth_error l i <> None) by congruence.
      apply nth_error_Some in H0. lia.
    + apply nth_error_None in X. assert (nth_error r i <> None) by congruence.
      apply nth_error_Some in H0. lia.
  - intros ->. split; [reflexivity|]. intros i x y -> [= ->]. now apply E.
Qed.
Print Assumptions C74_range_equal_sequences.
Example C74_case : is_equal_range Z.eqb [1; 2] [1; 2] = true /\ is_equal_range Z.eqb [1; 2] [1; 2; 3] = false
  /\ is_equal_range Z.eqb [1; 2] [1; 3] = false.
Proof. auto. Qed.

(** ** C36: dimensions and elements of a tensor made of a nested list *)
Local Open Scope nat_scope.
Theorem C36_from_list (T : Type) (dflt : T) n (il : ndl T (S n)) ds m :
  tensor_of_list dflt (S n) il = Ok (ds, m) ->
  fits (S n) il ds /\ (forall ds', length ds' = S n -> fits (S n) il ds' -> Forall2 le ds ds')
  /\ ((forall j, S j < length ds - 1 -> nth j ds 0 = nth (S j) ds 0) ->
      length m = nprod ds
      /\ forall is, Forall2 (fun d i => i < d) ds is ->
         nth_error m (row_major_n ds is) =
         Some (Some (match nd_get (S n) il is with Some x => x | None => dflt end))).
Proof.
  unfold tensor_of_list. destruct (C36_dimensions T (S n) il) as [F M]. cbv zeta in F, M. cbv zeta.
  set (D := compute_dimensions (S n) il (repeat 0 (S n))) in *. clearbody D.
  intro H. apply bind_Ok in H. destruct H as (m' & I & E). injection E as Ed <-. rewrite Ed in *.
  split; [exact F|]. split; [exact M|]. intro C.
  destruct (C36_nested_init T dflt n il ds F C) as (m2 & I2 & L & G).
  rewrite I in I2. injection I2 as <-. auto.
Qed.
Print Assumptions C36_from_list.
Example C36_empty_case : tensor_of_list 0 2 ([[]; []] : ndl nat 2) = Ok ([2; 0], [])
  /\ tensor_of_list 0 1 ([] : ndl nat 1) = Ok ([0], []).
Proof. vm_compute. auto. Qed.
Local Close Scope nat_scope.

(** ** C53: the size of a descending range *)
Theorem C53_drange_size t first last :
  1 < bits t -> IntTypes.sgn t = true -> in_ity t first -> in_ity t last -> in_ity t (last - 1) ->
  in_ity t (first - last + 1) ->
  exists r, drange t first last = Ok r /\ irange_size t r = Ok (Z.max 0 (first - last + 1)).
Proof.
  intros B S Hf Hl Hl1 Hs. unfold drange.
  assert (M1 : in_ity t (-1)).
  { unfold in_ity, ilow, ihigh in *. rewrite S in *.
    pose proof (Z.pow_pos_nonneg 2 (bits t - 1) ltac:(lia) ltac:(lia)). lia. }
  assert (N1 : last <= first -> in_ity t (-1 * (first - last + 1))).
  { intro L. unfold in_ity, ilow, ihigh in *. rewrite S in *. lia. }
  assert (Z0 : in_ity t 0 /\ in_ity t (-1 * 0)).
  { unfold in_ity, ilow, ihigh in *. rewrite S in *. lia. }
  destruct (Z.ltb_spec first last) as [L|L].
  - eexists. split; [reflexivity|]. rewrite Z.max_l by lia.
    pose proof (iiter_diff_ok t first (-1) 0 B S ltac:(lia) M1 (proj2 Z0) (proj1 Z0)) as K.
    unfold irange_size. cbn [fst snd]. replace (first + -1 * 0) with first in K by lia. exact K.
  - assert (A : iarith t (last - 1) = Ok (last - 1)).
    { unfold iarith. now rewrite (proj2 (in_ityb_spec t (last - 1)) Hl1). }
    rewrite A. cbn [bind]. eexists. split; [reflexivity|]. rewrite Z.max_r by lia.
    pose proof (iiter_diff_ok t first (-1) (first - last + 1) B S ltac:(lia) M1 (N1 L) Hs) as K.
    unfold irange_size. cbn [fst snd].
    replace (first + -1 * (first - last + 1)) with (last - 1) in K by lia. exact K.
Qed.
Print Assumptions C53_drange_size.
Example C53_drange_size_case : (do r <- drange int32 7 (-2); irange_size int32 r) = Ok 10
  /\ (do r <- drange int32 (-2) 7; irange_size int32 r) = Ok 0.
Proof. vm_compute. auto. Qed.
