(** C113: seeding a random generator with a string, uniform integers. *)
From Coq Require Import ZArith Bool List Lia Permutation.
From Verif Require Import Outcome IntTypes NumericModel RandomProofs RngModel.
Import ListNotations.
Local Open Scope Z_scope.

(** Characters are signed bytes. *)
Definition is_char (c : Z) : Prop := -128 <= c < 128.
Definition sum (value : list Z) : Z := fold_right Z.add 0 value.

Lemma wrap_word x : IntTypes.wrap uint64 x = x mod 2 ^ 64.
Proof. unfold IntTypes.wrap, ilow. cbn [bits sgn uint64]. rewrite Z.sub_0_r, Z.add_0_r. reflexivity. Qed.

Lemma add_chars_sum value : forall st, word64p st ->
  add_chars st value = ((fst st + sum value) mod 2 ^ 64, snd st).
Proof.
  induction value as [|c value IH]; intros [x y] [Hx Hy]; cbn [add_chars sum fold_right fst snd] in *.
  - rewrite Z.add_0_r, Z.mod_small by exact Hx. reflexivity.
  - rewrite !wrap_word, IH.
    + cbn [fst snd]. f_equal. fold (sum value). rewrite Z.add_mod_idemp_l by lia.
      replace (x + c mod 2 ^ 64 + sum value) with (c mod 2 ^ 64 + (x + sum value)) by lia.
      rewrite Z.add_mod_idemp_l by lia. f_equal. lia.
    + split; cbn [fst snd]; [|assumption]. apply Z.mod_pos_bound. lia.
Qed.

Lemma add_chars_word value st : word64p st -> word64p (add_chars st value).
Proof.
  intro H. rewrite add_chars_sum by assumption. destruct H as [_ H]. split; [|assumption].
  cbn [fst]. apply Z.mod_pos_bound. lia.
Qed.

Lemma seed_round_next d value : word64p d ->
  let '(d', base, again) := seed_round d value in
  d' = xoroshiro_next d /\ base = xoroshiro_run 2 (add_chars (xoroshiro_next d) value) /\
  (add_chars (xoroshiro_next d) value = (0, 0) -> again = true).
Proof.
  intro Hd. unfold seed_round. fold (xoroshiro_next d).
  destruct (xoroshiro_step (add_chars (xoroshiro_next d) value)) as [b1 r1] eqn:E1.
  destruct (xoroshiro_step b1) as [b2 r2] eqn:E2. repeat split.
  - cbn [xoroshiro_run]. unfold xoroshiro_next at 1 2. rewrite E1. cbn [fst]. now rewrite E2.
  - intro Z0. rewrite Z0 in E1.
    assert (E : xoroshiro_step (0, 0) = ((0, 0), 0)) by reflexivity.
    rewrite E in E1. injection E1 as <- <-. rewrite E in E2. injection E2 as <- <-. reflexivity.
Qed.

Lemma init_word : word64p xoroshiro_init.
Proof. repeat split; vm_compute; congruence. Qed.

(** Whatever the string: the generator is not left in the state that only gives zeros, nor does it
    get there. *)
Theorem C113_not_degenerate : forall fuel value s, seed fuel value = Ok s ->
  word64p s /\ forall n, xoroshiro_run n s <> (0, 0).
Proof.
  intros fuel value s. unfold seed. generalize init_word. generalize xoroshiro_init.
  induction fuel as [|fuel IH]; intros d Hd; cbn [seed_loop]; [discriminate|].
  pose proof (seed_round_next d value Hd) as R. destruct (seed_round d value) as [[d' base] again].
  destruct R as (-> & -> & R). destruct again.
  - apply IH. now apply xoroshiro_next_word.
  - intros [= <-]. pose proof (add_chars_word value _ (xoroshiro_next_word d Hd)) as W.
    assert (N : add_chars (xoroshiro_next d) value <> (0, 0)) by (intro E; now specialize (R E)).
    split.
    + cbn [xoroshiro_run]. now apply xoroshiro_next_word, xoroshiro_next_word.
    + intro n. apply xoroshiro_run_nonzero.
      * cbn [xoroshiro_run]. now apply xoroshiro_next_word, xoroshiro_next_word.
      * now apply (xoroshiro_run_nonzero 2).
Qed.

(** The round taken is the first one after which two numbers drawn in a row differ: round [k] starts
    from the default generator advanced [k] + 1 times, with the sum of the characters added to its
    first word; the generator is left after the two draws. *)
Definition shifted (k : nat) (value : list Z) : Z * Z :=
  let d := xoroshiro_run (S k) xoroshiro_init in ((fst d + sum value) mod 2 ^ 64, snd d).
Definition drawn (st : Z * Z) : Z := snd (xoroshiro_step st).
Definition repeats (st : Z * Z) : Prop := drawn st = drawn (xoroshiro_next st).
Theorem C113_round : forall fuel value s, seed fuel value = Ok s <->
  exists k, (k < fuel)%nat /\ ~ repeats (shifted k value) /\ (forall j, (j < k)%nat -> repeats (shifted j value)) /\
            s = xoroshiro_run 2 (shifted k value).
Proof.
  assert (R : forall d value, word64p d -> let st := ((fst (xoroshiro_next d) + sum value) mod 2 ^ 64, snd (xoroshiro_next d)) in
    exists b, seed_round d value = (xoroshiro_next d, xoroshiro_run 2 st, b) /\ (b = true <-> repeats st)).
  { intros d value W st. unfold seed_round. fold (xoroshiro_next d). rewrite add_chars_sum by now apply xoroshiro_next_word.
    fold st. destruct (xoroshiro_step st) as [b1 r1] eqn:E1. destruct (xoroshiro_step b1) as [b2 r2] eqn:E2.
    exists (r1 =? r2). unfold repeats, drawn. cbn [xoroshiro_run]. unfold xoroshiro_next. rewrite E1. cbn [fst snd]. rewrite E2. cbn [fst snd].
    split; [reflexivity | apply Z.eqb_eq]. }
  assert (G : forall fuel d value s, word64p d ->
    let sh k := (((fst (xoroshiro_run (S k) d)) + sum value) mod 2 ^ 64, snd (xoroshiro_run (S k) d)) in
    seed_loop fuel d value = Ok s <->
    exists k, (k < fuel)%nat /\ ~ repeats (sh k) /\ (forall j, (j < k)%nat -> repeats (sh j)) /\ s = xoroshiro_run 2 (sh k)).
  { induction fuel as [|fuel IH]; intros d value s W sh.
    - split; [discriminate | intros (k & K & _); lia].
    - cbn [seed_loop]. destruct (R d value W) as (b & E & B). rewrite E. destruct b.
      + rewrite IH by now apply xoroshiro_next_word. split.
        * intros (k & K & N & F & Es). exists (S k). split; [lia|]. split; [exact N|]. split; [|exact Es].
          intros [|j] J; [now apply B | apply (F j); lia].
        * intros ([|k] & K & N & F & Es); [exfalso; apply N; now apply B|].
          exists k. split; [lia|]. split; [exact N|]. split; [|exact Es]. intros j J. apply (F (S j)). lia.
      + assert (N0 : ~ repeats (sh 0%nat)) by (intros H; apply B in H; discriminate). split.
        * intros [= <-]. exists 0%nat. split; [lia|]. split; [exact N0|]. split; [lia | reflexivity].
        * intros ([|k] & K & N & F & Es); [now subst s | exfalso; apply N0, F; lia]. }
  intros fuel value s. unfold seed. apply G, init_word.
Qed.
Print Assumptions C113_round.
(** The first round for "ab"; a string that makes the first state degenerate does not exist, the second word is not zero. *)
Example C113_round_case : ~ repeats (shifted 0 [97; 98]) /\ xoroshiro_run 2 (shifted 0 [97; 98]) = (4697644804886885212, 8635810076407536982) /\
  repeats (0, 0).
Proof. split; [vm_compute; congruence | split; vm_compute; reflexivity]. Qed.

(** Only the sum of the characters matters: strings with equal sums, like rearrangements, give the
    same generator. *)
Theorem C113_sum : forall fuel v w, sum v mod 2 ^ 64 = sum w mod 2 ^ 64 -> seed fuel v = seed fuel w.
Proof.
  intros fuel v w E. unfold seed. generalize init_word. generalize xoroshiro_init.
  induction fuel as [|fuel IH]; intros d Hd; cbn [seed_loop]; [reflexivity|].
  assert (A : add_chars (xoroshiro_next d) v = add_chars (xoroshiro_next d) w).
  { rewrite !add_chars_sum by now apply xoroshiro_next_word. f_equal.
    rewrite <- (Z.add_mod_idemp_r _ (sum v)), E, Z.add_mod_idemp_r by lia. reflexivity. }
  assert (R : seed_round d v = seed_round d w). { unfold seed_round. fold (xoroshiro_next d). now rewrite A. }
  rewrite R. pose proof (seed_round_next d w Hd) as Q. destruct (seed_round d w) as [[d' base] again].
  destruct Q as (-> & _). destruct again; [|reflexivity]. apply IH. now apply xoroshiro_next_word.
Qed.

Lemma sum_perm v w : Permutation v w -> sum v = sum w.
Proof. induction 1; cbn; try fold (sum l) in *; try fold (sum l') in *; lia. Qed.
Theorem C113_distinct_refuted : forall fuel v w, Permutation v w -> seed fuel v = seed fuel w.
Proof. intros fuel v w H. apply C113_sum. now rewrite (sum_perm v w H). Qed.

(** Strings with different sums give different states, when the first round is the last (the test is
    for two equal outputs in a row). *)
Theorem C113_distinct_sums : forall v w s, Forall is_char v -> Forall is_char w ->
  Z.of_nat (length v) < 2 ^ 56 -> Z.of_nat (length w) < 2 ^ 56 ->
  seed 1 v = Ok s -> seed 1 w = Ok s -> sum v = sum w.
Proof.
  assert (B : forall l, Forall is_char l -> - (Z.of_nat (length l) * 128) <= sum l <= Z.of_nat (length l) * 127).
  { induction 1 as [|c l Hc _ IH]; cbn [length sum fold_right]; [lia|]. fold (sum l). unfold is_char in Hc. lia. }
  intros v w s Hv Hw Lv Lw. unfold seed. cbn [seed_loop].
  pose proof (seed_round_next xoroshiro_init v init_word) as Rv.
  pose proof (seed_round_next xoroshiro_init w init_word) as Rw.
  destruct (seed_round xoroshiro_init v) as [[d1 b1] a1], (seed_round xoroshiro_init w) as [[d2 b2] a2].
  destruct Rv as (_ & -> & _), Rw as (_ & -> & _). destruct a1; [discriminate|]. destruct a2; [discriminate|].
  intros E1 E2. assert (E : xoroshiro_run 2 (add_chars (xoroshiro_next xoroshiro_init) w)
                         = xoroshiro_run 2 (add_chars (xoroshiro_next xoroshiro_init) v)) by congruence.
  clear E1 E2.
  pose proof (xoroshiro_next_word _ init_word) as W.
  apply (xoroshiro_run_inj 2) in E; try now apply add_chars_word.
  rewrite !add_chars_sum in E by assumption. apply (f_equal fst) in E. cbn [fst] in E.
  apply B in Hv, Hw.
  set (x := fst (xoroshiro_next xoroshiro_init)) in *.
  pose proof (Z.div_mod (x + sum v) (2 ^ 64)). pose proof (Z.div_mod (x + sum w) (2 ^ 64)).
  assert ((x + sum v) / 2 ^ 64 = (x + sum w) / 2 ^ 64) by nia. nia.
Qed.

Example C113_seed_case :
  seed 1 [97; 98] = Ok (4697644804886885212, 8635810076407536982) /\ seed 1 [98; 97] = seed 1 [97; 98] /\
  seed 1 [97; 97] <> seed 1 [97; 98] /\ Permutation [97; 98] [98; 97].
Proof. repeat split; try (vm_compute; congruence). apply perm_swap. Qed.

(** * uniform *)
(** What the distribution of the standard library promises. *)
Definition in_bounds {State} (draw : Z -> Z -> State -> Z * State) : Prop :=
  forall a b s, a <= b -> a <= fst (draw a b s) <= b.

(** A number from a non-empty interval is in it, whatever the distribution does. *)
Theorem C113_uniform : forall State (draw : Z -> Z -> State -> Z * State) t from to s,
  in_bounds draw -> in_ity t from -> in_ity t to -> from < to ->
  exists r s', uniform State draw t from to s = Ok (r, s') /\ from <= r < to.
Proof.
  intros State draw t from to s D Hf Ht H. unfold uniform. unfold in_ity in *.
  rewrite iarith_in by (unfold in_ity; lia). cbn [bind].
  destruct (Z.leb_spec from (to - 1)); [|lia]. specialize (D from (to - 1) s H0).
  destruct (draw from (to - 1) s) as [r s'] eqn:E. exists r, s'. cbn [fst] in D. split; [reflexivity | lia].
Qed.

(** An empty interval is undefined behaviour. *)
Theorem C113_uniform_empty : forall State (draw : Z -> Z -> State -> Z * State) t from to s,
  0 < bits t -> in_ity t from -> in_ity t to -> to <= from -> IntTypes.sgn t = true ->
  uniform State draw t from to s = UB.
Proof.
  intros State draw t from to s B Hf Ht H Hs. unfold uniform. destruct (in_ityb t (to - 1)) eqn:E.
  - apply in_ityb_spec in E. rewrite iarith_in by assumption. cbn [bind]. destruct (Z.leb_spec from (to - 1)); [lia | reflexivity].
  - rewrite iarith_signed; [reflexivity | assumption |]. intro C. apply in_ityb_spec in C. congruence.
Qed.

(** An unsigned interval that ends at 0 is taken for all numbers: the result is not below the end. *)
Theorem C113_uniform_zero_refuted : forall State (draw : Z -> Z -> State -> Z * State) s, in_bounds draw ->
  exists r s', uniform0 State draw uint32 0 s = Ok (r, s') /\ ~ r < 0.
Proof.
  intros State draw s D. unfold uniform0, uniform.
  assert (E : iarith uint32 (0 - 1) = Ok (2 ^ 32 - 1)) by (vm_compute; reflexivity). rewrite E. cbn [bind].
  change (0 <=? 2 ^ 32 - 1) with true. cbv iota.
  assert (L : 0 <= 2 ^ 32 - 1) by (vm_compute; congruence). specialize (D 0 (2 ^ 32 - 1) s L).
  destruct (draw 0 (2 ^ 32 - 1) s) as [r s']. exists r, s'. cbn [fst] in D. split; [reflexivity | lia].
Qed.

Example C113_uniform_case :
  in_bounds (fun (a b : Z) (s : Z) => (a + s mod (b - a + 1), s + 1)) /\ uniform Z (fun a b s => (a + s mod (b - a + 1), s + 1)) int32 (-3) 4 20 = Ok (3, 21) /\ in_ity int32 (-3) /\ in_ity int32 4.
Proof.
  split.
  - intros a b s H. cbn [fst]. pose proof (Z.mod_pos_bound s (b - a + 1)). lia.
  - repeat split; vm_compute; congruence.
Qed.

Print Assumptions C113_not_degenerate.
Print Assumptions C113_sum.
Print Assumptions C113_distinct_refuted.
Print Assumptions C113_distinct_sums.
Print Assumptions C113_uniform.
Print Assumptions C113_uniform_empty.
Print Assumptions C113_uniform_zero_refuted.
