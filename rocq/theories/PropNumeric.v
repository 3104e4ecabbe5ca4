(** Properties C01 - C12: numeric. *)
From Coq Require Import ZArith List Bool Lia Znumtheory QArith.
From Verif Require Import Outcome NumericModel PowProofs RingProofs RandomProofs
  BitCmpProofs LiteralProofs.
Import ListNotations.
Local Open Scope Z_scope.

(** * C01 *)
Theorem C01_binary_pow_monoid :
  forall (T : Type) (mul : T -> T -> T) (one : T),
    (forall a b c, mul a (mul b c) = mul (mul a b) c) ->
    (forall a, mul one a = a) -> (forall a, mul a one = a) ->
    forall (value : T) (power : Z), 0 <= power ->
    binary_pow T mul one value power = Ok (npow mul one value (Z.to_nat power)).
Proof. exact binary_pow_ok. Qed.
Print Assumptions C01_binary_pow_monoid.

Theorem C01_binary_pow_multiplications :
  forall (T : Type) (mul : T -> T -> T) (one : T),
    (forall a b c, mul a (mul b c) = mul (mul a b) c) ->
    (forall a, mul one a = a) -> (forall a, mul a one = a) ->
    forall (value : T) (power : Z), 0 <= power ->
    exists cnt, binary_pow_cnt T mul one value power
                = Ok (npow mul one value (Z.to_nat power), cnt)
                /\ 0 <= cnt <= 2 * Z.log2 power + 1.
Proof. exact binary_pow_cnt_ok. Qed.
Print Assumptions C01_binary_pow_multiplications.

Theorem C01_binary_pow_rejects_negative :
  forall T (mul : T -> T -> T) one value power,
    power < 0 -> binary_pow T mul one value power = AssertFail.
Proof. exact binary_pow_negative. Qed.
Print Assumptions C01_binary_pow_rejects_negative.

(** Non-commutative instance: 2x2 integer matrices. *)
Definition mat := (Z * Z * Z * Z)%type.
Definition mat_mul (p q : mat) : mat :=
  let '(a, b, c, d) := p in let '(e, f, g, h) := q in
  (a * e + b * g, a * f + b * h, c * e + d * g, c * f + d * h).
Example C01_matrix_assoc : forall a b c, mat_mul a (mat_mul b c) = mat_mul (mat_mul a b) c.
Proof. intros [[[? ?] ?] ?] [[[? ?] ?] ?] [[[? ?] ?] ?]. cbn. f_equal; [f_equal; [f_equal|]|]; ring. Qed.
Example C01_matrix_noncomm : mat_mul (1,1,0,1) (1,0,1,1) <> mat_mul (1,0,1,1) (1,1,0,1).
Proof. discriminate. Qed.
Example C01_fibonacci : binary_pow mat mat_mul (1,0,0,1) (1,1,1,0) 90 =
  Ok (4660046610375530309, 2880067194370816120, 2880067194370816120, 1779979416004714189).
Proof. vm_compute. reflexivity. Qed.

(** * C02 *)
(** [m] residues in [w]-bit words; the stored word is [m mod 2^w], so the case
    m = 2^w (stored as 0) is included. *)
Theorem C02_add : forall w m x y, 0 < w -> 0 < m <= 2 ^ w -> 0 <= x < m -> 0 <= y < m ->
  mod_add w (m mod 2 ^ w) x y = (x + y) mod m.
Proof. intros w m x y. exact (fun Hw Hm => mod_add_ok w m Hw Hm x y). Qed.
Print Assumptions C02_add.

Theorem C02_sub : forall w m x y, 0 < w -> 0 < m <= 2 ^ w -> 0 <= x < m -> 0 <= y < m ->
  mod_sub w (m mod 2 ^ w) x y = (x - y) mod m.
Proof. intros w m x y. exact (fun Hw Hm => mod_sub_ok w m Hw Hm x y). Qed.
Print Assumptions C02_sub.

Theorem C02_neg : forall w m x, 0 < w -> 0 < m <= 2 ^ w -> 0 <= x < m ->
  mod_neg w (m mod 2 ^ w) x = (- x) mod m.
Proof. intros w m x. exact (fun Hw Hm => mod_neg_ok w m Hw Hm x). Qed.
Print Assumptions C02_neg.

Example C02_case : mod_add 64 18446744073709551557 18446744073709551556 18446744073709551555
  = 18446744073709551554 /\ mod_sub 32 0 3 5 = 4294967294.
Proof. split; reflexivity. Qed.

(** * C03 *)
Theorem C03_mul : forall w st m x y, word_ok w -> 0 < m <= 2 ^ w ->
  (m = 2 ^ w -> st = true \/ 64 <= w) ->
  0 <= x < m -> 0 <= y < m ->
  mod_mul w st (m mod 2 ^ w) x y = Ok ((x * y) mod m).
Proof.
  intros w st m x y Hw Hm Hz. apply mod_mul_ok; try assumption. destruct Hw; lia.
Qed.
Print Assumptions C03_mul.

(** The doubling path agrees with the mathematical product for any width. *)
Theorem C03_mul_binary : forall w m x y, 0 < w -> 0 < m <= 2 ^ w -> 0 <= x < m -> 0 <= y < m ->
  mod_mul_binary w (m mod 2 ^ w) x y = Ok ((x * y) mod m).
Proof. intros w m x y. exact (fun Hw Hm => mod_mul_binary_ok w m Hw Hm x y). Qed.
Print Assumptions C03_mul_binary.

Example C03_case :
  mod_mul 64 false 18446744073709551557 18446744073709551556 18446744073709551555 = Ok 2
  /\ mod_mul 32 true 0 4294967295 4294967295 = Ok 1
  /\ mod_mul 32 false 1000000007 1000000006 1000000006 = Ok 1.
Proof. repeat split; vm_compute; reflexivity. Qed.

(** * C04 *)
Theorem C04_div_solvable : forall w st m x y, word_ok w -> 0 < m <= 2 ^ w ->
  (m = 2 ^ w -> st = true \/ 64 <= w) ->
  0 <= x < m -> 0 <= y < m -> ~ (m = 2 ^ w /\ y = 0) ->
  (Z.gcd y m | x) ->
  exists q, mod_div w st (m mod 2 ^ w) x y = Ok q /\ 0 <= q < m /\ (q * y) mod m = x.
Proof.
  intros w st m x y Hw Hm Hz Hx Hy Hn. apply mod_div_ok; try assumption. destruct Hw; lia.
Qed.
Print Assumptions C04_div_solvable.

Theorem C04_div_unsolvable : forall w st m x y, word_ok w -> 0 < m <= 2 ^ w ->
  (m = 2 ^ w -> st = true \/ 64 <= w) ->
  0 <= x < m -> 0 <= y < m -> ~ (m = 2 ^ w /\ y = 0) ->
  ~ (exists q, (q * y) mod m = x) ->
  mod_div w st (m mod 2 ^ w) x y = Throw.
Proof.
  intros w st m x y Hw Hm Hz Hx Hy Hn Hq.
  apply mod_div_ok; try assumption; [destruct Hw; lia|].
  intro D. apply Hq.
  destruct (C04_div_solvable w st m x y Hw Hm Hz Hx Hy Hn D) as (q & _ & _ & E). eauto.
Qed.
Print Assumptions C04_div_unsolvable.

(** A returned quotient is never wrong. *)
Theorem C04_div_sound : forall w st m x y q, word_ok w -> 0 < m <= 2 ^ w ->
  (m = 2 ^ w -> st = true \/ 64 <= w) ->
  0 <= x < m -> 0 <= y < m -> ~ (m = 2 ^ w /\ y = 0) ->
  mod_div w st (m mod 2 ^ w) x y = Ok q -> 0 <= q < m /\ (q * y) mod m = x.
Proof.
  intros w st m x y q Hw Hm Hz Hx Hy Hn E.
  assert (Hw0 : 0 < w) by (destruct Hw; lia).
  destruct (Zdivide_dec (Z.gcd y m) x) as [D|D].
  - destruct (C04_div_solvable w st m x y Hw Hm Hz Hx Hy Hn D) as (q' & E' & H).
    rewrite E in E'. injection E' as ->. exact H.
  - destruct (mod_div_ok w st m Hw0 Hm Hw Hz x y Hx Hy Hn) as [_ T].
    rewrite (T D) in E. discriminate.
Qed.
Print Assumptions C04_div_sound.

(** Finding: with modulus 2^32 (stored as 0) dividing by zero evaluates
    [x % 0] instead of throwing. *)
Theorem C04_div_by_zero_pow2_refuted : forall st x, mod_div 32 st 0 x 0 = UB.
Proof. intros. now apply mod_div_zero_ub. Qed.
Print Assumptions C04_div_by_zero_pow2_refuted.

Example C04_case :
  mod_div 32 false 1000000007 1 2 = Ok 500000004
  /\ mod_div 32 false 12 8 10 = Ok 8
  /\ mod_div 32 false 12 5 10 = Throw
  /\ mod_div 64 false 18446744073709551557 7 18446744073709551556 = Ok 18446744073709551550
  /\ mod_div 32 true 0 1 3 = Ok 2863311531.
Proof. repeat split; vm_compute; reflexivity. Qed.

(** * C05 *)
Theorem C05_ring_laws : forall w st m x y z, word_ok w -> 0 < m < 2 ^ w ->
  reduced m x -> reduced m y -> reduced m z ->
  let add := mod_add w m in
  let neg := mod_neg w m in
  let mul := mod_mul w st m in
  (* closed *)
  (reduced m (add x y) /\ reduced m (neg x) /\ reduced m (mod_sub w m x y)
   /\ exists p, mul x y = Ok p /\ reduced m p)
  (* additive abelian group *)
  /\ add x y = add y x /\ add (add x y) z = add x (add y z)
  /\ add x 0 = x /\ add x (neg x) = 0 /\ mod_sub w m x y = add x (neg y)
  (* multiplication *)
  /\ mul x y = mul y x
  /\ (do p <- mul x y; mul p z) = (do p <- mul y z; mul x p)
  /\ mul x (1 mod m) = Ok x
  /\ mul x (add y z) = (do p <- mul x y; do q <- mul x z; Ok (add p q)).
Proof.
  intros w st m x y z Hw Hm Hx Hy Hz. cbv zeta.
  assert (R := fun a => reduced_mod w m Hm a).
  assert (A := fun a b => add_ok w m Hw Hm a b).
  assert (N := fun a => neg_ok w m Hw Hm a).
  assert (S := fun a b => sub_ok w m Hw Hm a b).
  assert (M := fun a b => mul_ok w st m Hw Hm a b).
  assert (R0 : reduced m 0) by (unfold reduced; lia).
  assert (small : forall a, reduced m a -> a mod m = a) by (intros; now apply Z.mod_small).
  assert (Rm : forall a, reduced m (a mod m)) by (intro; now apply R).
  split; [|split; [|split; [|split; [|split; [|split; [|split; [|split; [|split]]]]]]]].
  - split; [rewrite A by assumption; apply Rm|].
    split; [rewrite N by assumption; apply Rm|].
    split; [rewrite S by assumption; apply Rm|].
    exists ((x * y) mod m). split; [now apply M|apply Rm].
  - rewrite !A by assumption. f_equal. lia.
  - rewrite (A x y), (A y z), !A by auto.
    rewrite Zplus_mod_idemp_l, Zplus_mod_idemp_r. f_equal. lia.
  - rewrite A by assumption. rewrite Z.add_0_r. now apply small.
  - rewrite N, A by auto. rewrite Zplus_mod_idemp_r, Z.add_opp_diag_r. now apply small.
  - rewrite N, A, S by auto. rewrite Zplus_mod_idemp_r. f_equal.
  - rewrite !M by assumption. f_equal. f_equal. lia.
  - rewrite (M x y), (M y z) by assumption. cbn [bind]. rewrite !M by auto. f_equal.
    rewrite Zmult_mod_idemp_l, Zmult_mod_idemp_r. f_equal. lia.
  - rewrite M by auto. f_equal. rewrite Zmult_mod_idemp_r, Z.mul_1_r. now apply small.
  - rewrite (A y z), (M x y), (M x z) by assumption. cbn [bind]. rewrite M, A by auto.
    f_equal. rewrite Zmult_mod_idemp_r, <- Zplus_mod. f_equal. ring.
Qed.
Print Assumptions C05_ring_laws.

Theorem C05_prime_division_inverts_multiplication :
  forall w st m x y, word_ok w -> prime m -> m < 2 ^ w ->
  reduced m x -> reduced m y -> y <> 0 ->
  exists p, mod_mul w st m x y = Ok p /\ mod_div w st m p y = Ok x.
Proof. exact prime_mul_div. Qed.
Print Assumptions C05_prime_division_inverts_multiplication.

(** Finding: the constructor does not reduce, so elements built from congruent
    integers can compare different. *)
Theorem C05_constructor_reduces_refuted : exists w m v,
  word_ok w /\ 0 < m < 2 ^ w /\ 0 <= v < 2 ^ w /\
  ring_element_of w v <> ring_element_of w (v mod m).
Proof. exists 32, 7, 10. unfold word_ok. repeat split; try lia. discriminate. Qed.
Print Assumptions C05_constructor_reduces_refuted.

Example C05_case : prime 7 /\ mod_mul 32 true 7 5 3 = Ok 1 /\ mod_div 32 true 7 1 3 = Ok 5.
Proof.
  split; [|split; reflexivity].
  apply prime_intro; [lia|]. intros n Hn. apply Zgcd_1_rel_prime.
  assert (H : n = 1 \/ n = 2 \/ n = 3 \/ n = 4 \/ n = 5 \/ n = 6) by lia.
  repeat (destruct H as [->|H]; [reflexivity|]). subst; reflexivity.
Qed.

(** * C06 *)
Theorem C06_splitmix_permutation :
  (forall x, word64 x -> word64 (splitmix_next x))
  /\ (forall x y, word64 x -> word64 y -> splitmix_next x = splitmix_next y -> x = y)
  /\ (forall y, word64 y -> exists x, word64 x /\ splitmix_next x = y).
Proof.
  repeat split.
  - apply splitmix_next_word.
  - apply splitmix_next_word.
  - exact splitmix_next_inj.
  - intros y Hy. exists (splitmix_prev y). split; [apply splitmix_prev_word|now apply splitmix_next_prev].
Qed.
Print Assumptions C06_splitmix_permutation.

Theorem C06_splitmix_seeds_never_meet : forall n s t,
  word64 s -> word64 t -> s <> t -> splitmix_run n s <> splitmix_run n t.
Proof. intros n s t Hs Ht N E. apply N. now apply splitmix_run_inj with n. Qed.
Print Assumptions C06_splitmix_seeds_never_meet.

Example C06_case : splitmix_next 0 = 0xe220a8397b1dcdaf /\ word64 0
  /\ splitmix_run 3 1 <> splitmix_run 3 2.
Proof. repeat split; vm_compute; congruence. Qed.

(** * C07 *)
Theorem C07_xoroshiro_bijective :
  (forall s, word64p s -> word64p (xoroshiro_next s))
  /\ (forall s t, word64p s -> word64p t -> xoroshiro_next s = xoroshiro_next t -> s = t)
  /\ (forall t, word64p t -> exists s, word64p s /\ xoroshiro_next s = t).
Proof.
  split; [exact xoroshiro_next_word|]. split.
  - intros s t Hs Ht E. now apply (xoroshiro_run_inj 1).
  - intros t Ht. exists (xoroshiro_prev t).
    split; [now apply xoroshiro_prev_word|now apply xoroshiro_next_prev].
Qed.
Print Assumptions C07_xoroshiro_bijective.

Theorem C07_xoroshiro_never_degenerates : forall n s,
  word64p s -> s <> (0, 0) -> xoroshiro_run n s <> (0, 0).
Proof. exact xoroshiro_run_nonzero. Qed.
Print Assumptions C07_xoroshiro_never_degenerates.

Theorem C07_xoroshiro_default_state_never_degenerates : forall n,
  xoroshiro_run n xoroshiro_init <> (0, 0).
Proof.
  intro n. apply xoroshiro_run_nonzero; [|discriminate].
  repeat split; vm_compute; congruence.
Qed.
Print Assumptions C07_xoroshiro_default_state_never_degenerates.

Example C07_case : xoroshiro_step (1, 2) = ((36028797019013123, 206158430208), 3).
Proof. vm_compute. reflexivity. Qed.

(** * C08 *)
Theorem C08_hash_value_injective : forall seed n xs ys, (n <= 8)%nat ->
  is_bytes n xs -> is_bytes n ys ->
  hash_value_bytes seed xs = hash_value_bytes seed ys -> xs = ys.
Proof. exact hash_value_inj. Qed.
Print Assumptions C08_hash_value_injective.

(** Ranges (or tuples, with any first hash [h]) that agree but for the last
    element have different hashes. *)
Theorem C08_hash_range_last_element : forall seed n (prefix : list Z) xs ys, (n <= 8)%nat ->
  is_bytes n xs -> is_bytes n ys -> xs <> ys ->
  hash_range (prefix ++ [hash_value_bytes seed xs])
  <> hash_range (prefix ++ [hash_value_bytes seed ys]).
Proof.
  intros seed n prefix xs ys Hn Hx Hy N E. apply N.
  apply (hash_value_inj seed n); try assumption.
  apply (hash_fold_last_inj 0 prefix); try apply hash_value_word. exact E.
Qed.
Print Assumptions C08_hash_range_last_element.

Theorem C08_hash_tuple_last_element : forall seed n h (prefix : list Z) xs ys, (n <= 8)%nat ->
  is_bytes n xs -> is_bytes n ys -> xs <> ys ->
  hash_tuple h (prefix ++ [hash_value_bytes seed xs])
  <> hash_tuple h (prefix ++ [hash_value_bytes seed ys]).
Proof.
  intros seed n h prefix xs ys Hn Hx Hy N E. apply N.
  apply (hash_value_inj seed n); try assumption.
  apply (hash_fold_last_inj h prefix); try apply hash_value_word. exact E.
Qed.
Print Assumptions C08_hash_tuple_last_element.

(** Finding: equal doubles 0.0 and -0.0 (IEEE bytes, little-endian) have
    different hashes for every seed, so hashing is not compatible with [==]. *)
Definition double_pos_zero : list Z := [0; 0; 0; 0; 0; 0; 0; 0].
Definition double_neg_zero : list Z := [0; 0; 0; 0; 0; 0; 0; 128].
Theorem C08_signed_zero_hash_refuted : forall seed,
  hash_value_bytes seed double_pos_zero <> hash_value_bytes seed double_neg_zero.
Proof.
  intros seed E. apply (hash_value_inj seed 8) in E; [discriminate|lia| |];
    (split; [reflexivity|repeat constructor; lia]).
Qed.
Print Assumptions C08_signed_zero_hash_refuted.

Example C08_case : is_bytes 4 [1; 2; 3; 255]
  /\ hash_value_bytes 7 [1; 0; 0; 0] <> hash_value_bytes 7 [2; 0; 0; 0].
Proof. split; [split; [reflexivity|repeat constructor; lia]|vm_compute; congruence]. Qed.

(** * C09 *)
Theorem C09_set_bits : forall w x mask bits, 0 < w ->
  0 <= x < 2 ^ w -> 0 <= mask < 2 ^ w -> 0 <= bits < 2 ^ w ->
  0 <= set_bits w x mask bits < 2 ^ w /\
  forall i, 0 <= i ->
    Z.testbit (set_bits w x mask bits) i =
    if Z.testbit mask i then Z.testbit bits i else Z.testbit x i.
Proof.
  intros. split; [now apply set_bits_word|]. intros. now apply set_bits_spec.
Qed.
Print Assumptions C09_set_bits.

Theorem C09_clear_bits : forall w x bits i, 0 < w ->
  0 <= x < 2 ^ w -> 0 <= bits < 2 ^ w -> 0 <= i ->
  Z.testbit (clear_bits w x bits) i = Z.testbit x i && negb (Z.testbit bits i).
Proof. intros. now apply clear_bits_spec. Qed.
Print Assumptions C09_clear_bits.

Theorem C09_clear_bit : forall w x i, 0 < w -> 0 <= x < 2 ^ w -> 0 <= i < w ->
  exists y, clear_bit w x i = Ok y /\
    forall j, 0 <= j -> Z.testbit y j = if j =? i then false else Z.testbit x j.
Proof. intros. now apply clear_bit_spec. Qed.
Print Assumptions C09_clear_bit.

Theorem C09_has_bits : forall x b, 0 <= x -> 0 <= b ->
  has_bits x b = true <->
  (forall i, 0 <= i -> Z.testbit b i = true -> Z.testbit x i = true).
Proof. exact has_bits_spec. Qed.
Print Assumptions C09_has_bits.

Theorem C09_has_bit_and_bit : forall w i, 0 < w -> 0 <= i < w ->
  (forall x, has_bit w x i = Ok (Z.testbit x i))
  /\ exists b, bit w i = Ok b /\ 0 <= b < 2 ^ w /\
       forall j, 0 <= j -> Z.testbit b j = (j =? i).
Proof. intros. split; [intro; now apply has_bit_spec|now apply bit_spec]. Qed.
Print Assumptions C09_has_bit_and_bit.

Example C09_case : set_bits 8 202 15 3 = 195 /\ clear_bits 8 255 129 = 126
  /\ has_bits 13 12 = true /\ has_bits 13 14 = false /\ bit 8 7 = Ok 128 /\ bit 8 (-1) = AssertFail.
Proof. repeat split; reflexivity. Qed.

(** * C10 *)
Theorem C10_min : forall T (less : T -> T -> bool), strict_weak less -> forall l r,
  (cmp_min T less l r = l \/ cmp_min T less l r = r)
  /\ less l (cmp_min T less l r) = false /\ less r (cmp_min T less l r) = false
  /\ (less l r = false -> less r l = false -> cmp_min T less l r = l).
Proof. exact min_spec. Qed.
Print Assumptions C10_min.

Theorem C10_max : forall T (less : T -> T -> bool), strict_weak less -> forall l r,
  (cmp_max T less l r = l \/ cmp_max T less l r = r)
  /\ less (cmp_max T less l r) l = false /\ less (cmp_max T less l r) r = false
  /\ (less l r = false -> less r l = false -> cmp_max T less l r = l).
Proof. exact max_spec. Qed.
Print Assumptions C10_max.

Theorem C10_compare3way : forall T (less : T -> T -> bool), strict_weak less ->
  (forall l r,
    (compare3way T less l r = -1 <-> less l r = true)
    /\ (compare3way T less l r = 1 <-> less r l = true)
    /\ (compare3way T less l r = 0 <-> less l r = false /\ less r l = false)
    /\ compare3way T less r l = - compare3way T less l r)
  /\ (forall x y z, compare3way T less x y <= 0 -> compare3way T less y z <= 0 ->
        compare3way T less x z <= 0).
Proof. intros. split; [intros; now apply compare3way_spec|now apply compare3way_trans]. Qed.
Print Assumptions C10_compare3way.

(** is_less_or_equal is a total preorder whose strict part is [<]; is_greater_or_equal and
    is_greater are the same with the arguments exchanged. *)
Theorem C10_or_equal : forall T (less : T -> T -> bool), strict_weak less ->
  (forall x y z, is_less_or_equal T less x y = true -> is_less_or_equal T less y z = true -> is_less_or_equal T less x z = true)
  /\ forall l r, is_less_or_equal T less l l = true
    /\ (is_less_or_equal T less l r = true \/ is_less_or_equal T less r l = true)
    /\ (less l r = true <-> is_less_or_equal T less l r = true /\ is_less_or_equal T less r l = false)
    /\ is_greater_or_equal T less l r = is_less_or_equal T less r l
    /\ is_greater T less l r = less r l.
Proof.
  intros T less S. destruct S as [Irr Tr Eq]. unfold is_less_or_equal, is_greater_or_equal, is_greater.
  split.
  - intros x y z H1 H2. apply negb_true_iff in H1, H2. apply negb_true_iff.
    destruct (less z x) eqn:Z; [|reflexivity].
    destruct (less x y) eqn:XY; [rewrite (Tr _ _ _ Z XY) in H2; discriminate|].
    destruct (less y z) eqn:YZ; [rewrite (Tr _ _ _ YZ Z) in H1; discriminate|].
    destruct (Eq x y z XY H1 YZ H2). congruence.
  - intros l r. rewrite Irr. split; [reflexivity|].
    assert (A : less l r = true -> less r l = false).
    { intro H. destruct (less r l) eqn:E; [|reflexivity]. rewrite <- (Irr l). symmetry. eauto. }
    destruct (less l r), (less r l); cbn; try (discriminate (A eq_refl)); repeat split; try easy; auto; now intros [].
Qed.
Print Assumptions C10_or_equal.

Theorem C10_sgn : forall x, sgn x = Z.sgn x.
Proof. exact sgn_spec. Qed.
Print Assumptions C10_sgn.

(** Instance with distinguishable equivalent values: pairs compared by the
    first component. *)
Example C10_case : strict_weak (fun p q : Z * Z => fst p <? fst q)
  /\ cmp_min _ (fun p q : Z * Z => fst p <? fst q) (1, 7) (1, 8) = (1, 7)
  /\ cmp_max _ (fun p q : Z * Z => fst p <? fst q) (1, 7) (1, 8) = (1, 7).
Proof. split; [split; intros; lia|split; reflexivity]. Qed.

(** * C11 *)
Theorem C11_trichotomy : forall eps l r, (0 <= eps)%Q ->
  (ae_less eps l r = true /\ ae_equal eps l r = false /\ ae_greater eps l r = false)
  \/ (ae_less eps l r = false /\ ae_equal eps l r = true /\ ae_greater eps l r = false)
  \/ (ae_less eps l r = false /\ ae_equal eps l r = false /\ ae_greater eps l r = true).
Proof. exact ae_trichotomy. Qed.
Print Assumptions C11_trichotomy.

Theorem C11_laws : forall eps x y z t, (0 <= eps)%Q ->
  ae_equal eps x x = true
  /\ ae_equal eps x y = ae_equal eps y x
  /\ ae_equal eps (x + t) (y + t) = ae_equal eps x y
  /\ ae_less eps (x + t) (y + t) = ae_less eps x y
  /\ (ae_less eps x y = true -> ae_less eps y z = true -> ae_less eps x z = true).
Proof.
  intros eps x y z t He.
  split; [now apply ae_equal_refl|]. split; [apply ae_equal_sym|].
  split; [apply ae_translate|]. split; [apply ae_translate|]. now apply ae_less_trans.
Qed.
Print Assumptions C11_laws.

Theorem C11_equality_transitive_refuted : forall eps, (0 < eps)%Q ->
  exists x y z, ae_equal eps x y = true /\ ae_equal eps y z = true
                /\ ae_equal eps x z = false.
Proof. exact ae_not_transitive. Qed.
Print Assumptions C11_equality_transitive_refuted.

Example C11_case : ae_equal (1#10) (3#2) (8#5) = true /\ ae_less (1#10) (3#2) (17#10) = true
  /\ ae_equal (1#10) (3#2) (17#10) = false.
Proof. repeat split; reflexivity. Qed.

(** * C12 *)
Theorem C12_literal_exact : forall umax tmax cs v, 0 <= tmax <= umax ->
  str_to_constant umax tmax cs = Some v <->
  exists base ds, literal base ds cs /\ digits_ok base ds
                  /\ v = numeral base ds /\ v <= tmax.
Proof. exact str_to_constant_spec. Qed.
Print Assumptions C12_literal_exact.

(** 1'000_c, 0xfF_c, 0b101_c, 017_c, 0_c, 2147483648_c (rejected for int), 09_c (rejected). *)
Example C12_case :
  let lit := str_to_constant (2 ^ 32 - 1) (2 ^ 31 - 1) in
  lit [49; 39; 48; 48; 48] = Some 1000 /\ lit [48; 120; 102; 70] = Some 255
  /\ lit [48; 98; 49; 48; 49] = Some 5 /\ lit [48; 49; 55] = Some 15 /\ lit [48] = Some 0
  /\ lit [50;49;52;55;52;56;51;54;52;56] = None /\ lit [50;49;52;55;52;56;51;54;52;55] = Some 2147483647
  /\ lit [48; 57] = None.
Proof. repeat split; reflexivity. Qed.
