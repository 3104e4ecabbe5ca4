(** Lemmas about FloatTextModel. *)
From Coq Require Import ZArith List Bool QArith Qabs Lia Lqa.
From Verif Require Import Outcome StringModel IntTypes IntTextModel IntTextProofs FloatTextModel.
Import ListNotations.

(** ** Relative errors *)
Section Error.
  Variable u : Q.
  Hypothesis Hu : 0 <= u < 1.
  Local Open Scope Q_scope.
  Fixpoint shrink (k : nat) : Q := match k with O => 1 | S k => (1 - u) * shrink k end.
  (** Both numbers differ at most by the factor (1 - u)^k. *)
  Definition approx (k : nat) (v w : Q) : Prop := shrink k * v <= w /\ shrink k * w <= v.
  Lemma shrink_bounds k : 0 < shrink k <= 1.
  Proof. induction k as [|k IH]; cbn [shrink]; [lra | nra]. Qed.
  Lemma shrink_add a b : shrink (a + b) == shrink a * shrink b.
  Proof. induction a as [|a IH]; cbn [shrink Nat.add]; [ring | rewrite IH; ring]. Qed.
  Lemma shrink_mono a b : (a <= b)%nat -> shrink b <= shrink a.
  Proof.
    intros L. replace b with (a + (b - a))%nat by lia. rewrite shrink_add.
    pose proof (shrink_bounds a). pose proof (shrink_bounds (b - a)). nra.
  Qed.
  Lemma approx_refl v : approx 0 v v. Proof. unfold approx. cbn. lra. Qed.
  Lemma approx_mono a b v w : (a <= b)%nat -> 0 <= v -> 0 <= w -> approx a v w -> approx b v w.
  Proof. intros L V W (A & B). pose proof (shrink_mono a b L). pose proof (shrink_bounds b). unfold approx. split; nra. Qed.
  Lemma approx_eq k v v' w : v == v' -> approx k v w -> approx k v' w.
  Proof. intros E (A & B). unfold approx. now rewrite <- E. Qed.
  Lemma approx_mul a b v w v' w' : 0 <= v -> 0 <= w -> 0 <= v' -> 0 <= w' -> approx a v w -> approx b v' w' ->
    approx (a + b) (v * v') (w * w').
  Proof.
    intros V W V' W' (A & B) (A' & B'). pose proof (shrink_bounds a). pose proof (shrink_bounds b).
    unfold approx. rewrite shrink_add.
    assert (M : forall x y p q, 0 <= x -> 0 <= y -> x <= p -> y <= q -> x * y <= p * q) by (intros; nra).
    split.
    - setoid_replace (shrink a * shrink b * (v * v')) with ((shrink a * v) * (shrink b * v')) by ring. apply M; nra.
    - setoid_replace (shrink a * shrink b * (w * w')) with ((shrink a * w) * (shrink b * w')) by ring. apply M; nra.
  Qed.
  Lemma approx_add k v w v' w' : approx k v w -> approx k v' w' -> approx k (v + v') (w + w').
  Proof. intros (A & B) (A' & B'). unfold approx. split; lra. Qed.
  Lemma approx_inv k v w : 0 < v -> 0 < w -> approx k v w -> approx k (/ v) (/ w).
  Proof.
    intros V W (A & B). pose proof (shrink_bounds k). unfold approx.
    assert (Iv : 0 < / v) by now apply Qinv_lt_0_compat. assert (Iw : 0 < / w) by now apply Qinv_lt_0_compat.
    split.
    - setoid_replace (shrink k * / v) with ((shrink k * w) * (/ v * / w)) by (field; split; lra).
      setoid_replace (/ w) with (v * (/ v * / w)) at 2 by (field; split; lra). apply Qmult_le_compat_r; [exact B | nra].
    - setoid_replace (shrink k * / w) with ((shrink k * v) * (/ v * / w)) by (field; split; lra).
      setoid_replace (/ v) with (w * (/ v * / w)) at 2 by (field; split; lra). apply Qmult_le_compat_r; [exact A | nra].
  Qed.
  Variable rnd : Q -> Q.
  Hypothesis Hr : forall q, Qabs (rnd q - q) <= u * Qabs q.
  Lemma rnd_bounds q : 0 <= q -> (1 - u) * q <= rnd q <= (1 + u) * q.
  Proof. intros H. pose proof (Hr q) as R. rewrite (Qabs_pos q H) in R. apply Qabs_Qle_condition in R. lra. Qed.
  Lemma rnd_nonneg q : 0 <= q -> 0 <= rnd q. Proof. intros H. pose proof (rnd_bounds q H). nra. Qed.
  Lemma rnd_pos q : 0 < q -> 0 < rnd q. Proof. intros H. assert (H' : 0 <= q) by lra. pose proof (rnd_bounds q H'). nra. Qed.
  Lemma approx_rnd k v w : 0 <= v -> 0 <= w -> approx k v w -> approx (S k) v (rnd w).
  Proof.
    intros V W (A & B). pose proof (rnd_bounds w W). pose proof (shrink_bounds k). unfold approx. cbn [shrink]. split.
    - apply Qle_trans with ((1 - u) * w); [|lra]. setoid_replace ((1 - u) * shrink k * v) with ((1 - u) * (shrink k * v)) by ring.
      generalize dependent (shrink k * v). intros z; intros. nra.
    - apply Qle_trans with (shrink k * w); [|exact B]. setoid_replace ((1 - u) * shrink k * rnd w) with (shrink k * ((1 - u) * rnd w)) by ring.
      assert (M : (1 - u) * rnd w <= w) by nra. generalize dependent ((1 - u) * rnd w). intros z; intros. nra.
  Qed.
End Error.

(** ** Digits *)
Local Open Scope Z_scope.
Lemma unchecked_loop_spec b s : 2 <= b <= 36 -> Forall is_char s -> forall x, 0 <= x ->
  (x + 1) * b ^ Z.of_nat (length (digit_run b s)) <= 2 ^ 64 ->
  unchecked_loop b x s = (eval_from b x (digit_run b s), length (digit_run b s)).
Proof.
  intros B. induction s as [|c s IH]; intros F x X L; [reflexivity|]. inversion_clear F as [|? ? Fc Fs].
  cbn [unchecked_loop digit_run] in *. pose proof (to_digit_in 64 b c ltac:(lia) Fc B) as D.
  destruct (digit_in b c) as [d|] eqn:E.
  - rewrite D. pose proof (digit_in_bound b c d E) as Bd. destruct (Z.ltb_spec d b); [|lia]. cbn [negb length eval_from] in *.
    rewrite Nat2Z.inj_succ, Z.pow_succ_r in L by lia.
    assert (P : 1 <= b ^ Z.of_nat (length (digit_run b s))) by (apply (Z.pow_le_mono_r b 0); lia).
    assert (x * b + d < 2 ^ 64) by nia. rewrite Z.mod_small by nia. rewrite IH; [reflexivity | exact Fs | nia | nia].
  - destruct (Z.ltb_spec (to_digit 64 (b <=? 10) c) b); [lia | reflexivity].
Qed.
Lemma digit_count_le fuel x b : 2 <= b -> 0 < x -> b ^ (digit_count fuel x b - 1) <= x.
Proof.
  intros B. revert x. induction fuel as [|fuel IH]; intros x X; [cbn; lia|]. cbn [digit_count].
  destruct (Z.eqb_spec x 0); [lia|]. replace (1 + digit_count fuel (x / b) b - 1) with (digit_count fuel (x / b) b) by lia.
  destruct (Z.lt_ge_cases 0 (x / b)) as [P | P].
  - specialize (IH _ P). set (k := digit_count fuel (x / b) b) in *.
    destruct (Z.lt_ge_cases 0 k) as [K | K].
    + replace k with (Z.succ (k - 1)) by lia. rewrite Z.pow_succ_r by lia. pose proof (Z.mul_div_le x b ltac:(lia)). nia.
    + destruct (Z.eq_dec k 0) as [-> | N]; [cbn; lia | rewrite Z.pow_neg_r; lia].
  - pose proof (Z.div_pos x b ltac:(lia) ltac:(lia)). replace (x / b) with 0 by lia.
    replace (digit_count fuel 0 b) with 0 by (now destruct fuel). cbn. lia.
Qed.
Lemma max_length_spec b : 2 <= b <= 36 -> (1 <= max_length b)%nat /\ b ^ Z.of_nat (max_length b) < 2 ^ 64.
Proof.
  intros B. assert (2 <= digit_count 64 (2 ^ 64 - 1) b).
  { assert (E : forall k, (k < 35)%nat -> 2 <=? digit_count 64 (2 ^ 64 - 1) (Z.of_nat k + 2) = true).
    { intros k Hk. do 35 (destruct k as [|k]; [vm_compute; reflexivity|]). lia. }
    specialize (E (Z.to_nat (b - 2)) ltac:(lia)). rewrite Z2Nat.id in E by lia. replace (b - 2 + 2) with b in E by lia. now apply Z.leb_le. }
  pose proof (digit_count_le 64 (2 ^ 64 - 1) b ltac:(lia) ltac:(lia)). unfold max_length. rewrite Z2Nat.id by lia. lia.
Qed.
Lemma digit_run_firstn b n s : digit_run b (firstn n s) = firstn n (digit_run b s).
Proof.
  revert s. induction n as [|n IH]; intros [|c s]; try reflexivity. cbn [firstn digit_run]. destruct (digit_in b c); [|reflexivity]. cbn [firstn]. now rewrite IH.
Qed.
Lemma digit_run_skipn b n s : (n <= length (digit_run b s))%nat -> digit_run b (skipn n s) = skipn n (digit_run b s).
Proof.
  revert s. induction n as [|n IH]; intros [|c s] L; try reflexivity. cbn [digit_run skipn] in *. destruct (digit_in b c); cbn [length skipn] in *; [apply IH; lia | lia].
Qed.
Lemma digit_run_le b s : (length (digit_run b s) <= length s)%nat.
Proof. induction s as [|c s IH]; cbn [digit_run length]; [lia|]. destruct (digit_in b c); cbn [length]; lia. Qed.
Lemma digit_run_bound b s : Forall (fun d => 0 <= d < b) (digit_run b s).
Proof. induction s as [|c s IH]; cbn [digit_run]; [constructor|]. destruct (digit_in b c) eqn:E; constructor; auto. now apply digit_in_bound in E. Qed.
Lemma parse_int_spec b s : 2 <= b <= 36 -> Forall is_char s ->
  let r := firstn (max_length b) (digit_run b s) in parse_int b (max_length b) s = (eval b r, length r).
Proof.
  intros B F r. destruct (max_length_spec b B) as (_ & M). unfold parse_int, eval.
  assert (E : digit_run b (if (length s <=? max_length b)%nat then s else firstn (max_length b) s) = r).
  { unfold r. destruct (Nat.leb_spec (length s) (max_length b)); [|apply digit_run_firstn].
    rewrite firstn_all2; [reflexivity|]. pose proof (digit_run_le b s). lia. }
  rewrite unchecked_loop_spec; [now rewrite E | exact B | | lia |].
  - destruct (_ <=? _)%nat; [exact F|]. apply Forall_forall. intros c Hc. rewrite Forall_forall in F. apply F. rewrite <- (firstn_skipn (max_length b) s). apply in_or_app. now left.
  - rewrite E. assert (b ^ Z.of_nat (length r) <= b ^ Z.of_nat (max_length b)); [|lia]. apply Z.pow_le_mono_r; [lia|].
    unfold r. rewrite firstn_length. lia.
Qed.
Lemma eval_from_split b a ds : eval_from b a ds = a * b ^ Z.of_nat (length ds) + eval b ds.
Proof.
  unfold eval. assert (G : forall ds a, eval_from b a ds = a * b ^ Z.of_nat (length ds) + eval_from b 0 ds).
  { clear. induction ds as [|d ds IH]; intros a; [cbn; lia|]. cbn [eval_from length]. rewrite (IH (a * b + d)), (IH (0 * b + d)), Nat2Z.inj_succ, Z.pow_succ_r by lia. ring. }
  apply G.
Qed.
Lemma eval_nonneg b a ds : 1 <= b -> 0 <= a -> Forall (fun d => 0 <= d < b) ds -> 0 <= eval_from b a ds.
Proof. intros B A F. pose proof (eval_from_ge b a ds B A ltac:(eapply Forall_impl; [|exact F]; cbn; lia)). lia. Qed.

Lemma skipn_skipn_add {T} n m (l : list T) : skipn m (skipn n l) = skipn (n + m) l.
Proof. revert n. induction l as [|y l IH]; intros n; [now rewrite !skipn_nil|]. destruct n as [|n]; [reflexivity|]. cbn [skipn Nat.add]. apply IH. Qed.

(** ** Blocks of digits *)
Section Blocks.
  Variable u : Q.
  Hypothesis Hu : (0 <= u < 1)%Q.
  Variable rnd : Q -> Q.
  Hypothesis Hr : forall q, (Qabs (rnd q - q) <= u * Qabs q)%Q.
  Variable b : Z.
  Hypothesis Hb : 2 <= b <= 36.
  Notation L := (max_length b).
  Definition bq (n : nat) : Q := inject_Z (b ^ Z.of_nat n).
  Lemma bq_pos n : (0 < bq n)%Q.
  Proof. unfold bq. change 0%Q with (inject_Z 0). rewrite <- Zlt_Qlt. apply Z.pow_pos_nonneg; lia. Qed.
  Lemma bq_add n m : (bq (n + m) == bq n * bq m)%Q.
  Proof. unfold bq. rewrite <- inject_Z_mult, Nat2Z.inj_add, Z.pow_add_r by lia. reflexivity. Qed.
  Lemma pow_float_spec n : (n <= L)%nat -> approx u 1 (bq n) (pow_float rnd b n) /\ (0 < pow_float rnd b n)%Q.
  Proof.
    intros Ln. unfold pow_float. destruct (max_length_spec b Hb) as (_ & M).
    assert (b ^ Z.of_nat n <= b ^ Z.of_nat L) by (apply Z.pow_le_mono_r; lia).
    rewrite Z.mod_small by (split; [apply Z.pow_nonneg; lia | lia]). fold (bq n). pose proof (bq_pos n) as P. split.
    - apply approx_rnd; try assumption; try lra. apply approx_refl.
    - now apply (rnd_pos u Hu rnd Hr).
  Qed.
  Lemma injZ_nonneg z : 0 <= z -> (0 <= inject_Z z)%Q.
  Proof. intros H. change 0%Q with (inject_Z 0). now rewrite <- Zle_Qle. Qed.
  Hint Resolve bq_pos injZ_nonneg : core.
  Lemma point_block j e power n : (n <= L)%nat -> (0 < power)%Q -> approx u (2 * j) (/ bq e) power ->
    let power' := rnd (power / pow_float rnd b n)%Q in (0 < power')%Q /\ approx u (2 * S j) (/ bq (e + n)) power'.
  Proof.
    intros Ln P A power'. destruct (pow_float_spec n Ln) as (B & F). unfold power', Qdiv.
    pose proof (bq_pos e) as Pe. pose proof (bq_pos n) as Pn.
    assert (Ie : (0 < / bq e)%Q) by now apply Qinv_lt_0_compat. assert (In' : (0 < / bq n)%Q) by now apply Qinv_lt_0_compat.
    assert (If : (0 < / pow_float rnd b n)%Q) by now apply Qinv_lt_0_compat.
    assert (Q : (0 < power * / pow_float rnd b n)%Q) by nra. split; [now apply (rnd_pos u Hu rnd Hr)|].
    apply (approx_eq u Hu) with (/ bq e * / bq n)%Q; [rewrite (bq_add e n); field; split; lra|].
    replace (2 * S j)%nat with (S (2 * j + 1)) by lia. apply approx_rnd; try assumption; try nra.
    apply approx_mul; try assumption; try lra. apply approx_inv; auto.
  Qed.
  Lemma point_value nb j E p x e power' : (j + 1 <= nb)%nat -> 0 <= E -> 0 <= p -> (0 <= x)%Q -> (0 < power')%Q ->
    forall n, approx u (3 * nb) (inject_Z E / bq e) x -> approx u (2 * S j) (/ bq (e + n)) power' ->
    let x' := rnd (x + rnd (rnd (inject_Z p) * power'))%Q in
    (0 <= x')%Q /\ approx u (3 * S nb) (inject_Z (E * b ^ Z.of_nat n + p) / bq (e + n)) x'.
  Proof.
    intros J HE Hp X P n A B x'. unfold x'. pose proof (bq_pos e) as Pe. pose proof (bq_pos (e + n)) as Pen. pose proof (bq_pos n) as Pn.
    pose proof (injZ_nonneg p Hp) as Ip. pose proof (injZ_nonneg E HE) as IE.
    assert (Ie : (0 < / bq e)%Q) by now apply Qinv_lt_0_compat. assert (Ien : (0 < / bq (e + n))%Q) by now apply Qinv_lt_0_compat.
    pose proof (rnd_nonneg u Hu rnd Hr _ Ip) as Rp. assert (Q : (0 <= rnd (inject_Z p) * power')%Q) by nra.
    pose proof (rnd_nonneg u Hu rnd Hr _ Q) as Rq. assert (Q2 : (0 <= x + rnd (rnd (inject_Z p) * power'))%Q) by lra.
    split; [now apply (rnd_nonneg u Hu rnd Hr)|].
    apply (approx_eq u Hu) with (inject_Z E / bq e + inject_Z p * / bq (e + n))%Q.
    { rewrite inject_Z_plus, inject_Z_mult. fold (bq n). rewrite (bq_add e n). field. split; lra. }
    replace (3 * S nb)%nat with (S (3 * nb + 2)) by lia. unfold Qdiv in *. apply approx_rnd; try assumption; try nra.
    apply approx_add.
    - apply approx_mono with (3 * nb)%nat; try assumption; try lia; nra.
    - apply approx_mono with (S (1 + 2 * S j)); try assumption; try lia; [nra|]. apply approx_rnd; try assumption; [nra|].
      apply approx_mul; try assumption; try lra. apply approx_rnd; try assumption. apply approx_refl.
  Qed.
  Lemma integral_block nb E p x n : (n <= L)%nat -> 0 <= E -> 0 <= p -> (0 <= x)%Q -> approx u (3 * nb) (inject_Z E) x ->
    let x' := rnd (rnd (x * pow_float rnd b n) + rnd (inject_Z p))%Q in
    (0 <= x')%Q /\ approx u (3 * S nb) (inject_Z (E * b ^ Z.of_nat n + p)) x'.
  Proof.
    intros Ln HE Hp X A x'. unfold x'. destruct (pow_float_spec n Ln) as (B & F). pose proof (bq_pos n) as Pn.
    pose proof (injZ_nonneg p Hp) as Ip. pose proof (injZ_nonneg E HE) as IE.
    pose proof (rnd_nonneg u Hu rnd Hr _ Ip) as Rp. assert (Q : (0 <= x * pow_float rnd b n)%Q) by nra.
    pose proof (rnd_nonneg u Hu rnd Hr _ Q) as Rq.
    split; [apply (rnd_nonneg u Hu rnd Hr); lra|].
    apply (approx_eq u Hu) with (inject_Z E * bq n + inject_Z p)%Q; [rewrite inject_Z_plus, inject_Z_mult; fold (bq n); ring|].
    replace (3 * S nb)%nat with (S (3 * nb + 2)) by lia. apply approx_rnd; try assumption; try nra. apply approx_add.
    - replace (3 * nb + 2)%nat with (S (3 * nb + 1)) by lia. apply approx_rnd; try assumption; [nra|]. apply approx_mul; try assumption; lra.
    - apply approx_mono with 1%nat; try assumption; [lia|]. apply approx_rnd; try assumption. apply approx_refl.
  Qed.

  (** The loops. *)
  Lemma block_split s r n : r = digit_run b s -> n = length (firstn L r) -> n <> O ->
    (n <= L)%nat /\ (n <= length r)%nat /\ digit_run b (skipn n s) = skipn n r /\ r = firstn L r ++ skipn n r /\
    (length (skipn n s) < length s)%nat /\ (n = L \/ skipn n r = []).
  Proof.
    intros -> En N. rewrite firstn_length in En. pose proof (digit_run_le b s) as Le.
    assert (Ln : (n <= length (digit_run b s))%nat) by lia. repeat split; try lia.
    - now apply digit_run_skipn.
    - rewrite <- (firstn_skipn L (digit_run b s)) at 1. f_equal. destruct (Nat.le_ge_cases L (length (digit_run b s))).
      + now replace n with L by lia.
      + rewrite !skipn_all2 by lia. reflexivity.
    - rewrite skipn_length. lia.
    - destruct (Nat.le_ge_cases L (length (digit_run b s))); [left; lia | right; apply skipn_all2; lia].
  Qed.
  Lemma point_loop_spec fuel : forall s x power nb j E e, (length s <= fuel)%nat -> Forall is_char s ->
    (j + 1 <= nb)%nat -> 0 <= E -> (0 <= x)%Q -> (0 < power)%Q -> approx u (2 * j) (/ bq e) power -> approx u (3 * nb) (inject_Z E / bq e) x ->
    let r := digit_run b s in
    exists q x' power', point_loop rnd b L fuel x power s = Ok (length r, (x', power')) /\
      (L * q <= length r + L)%nat /\ (r = [] -> q = O) /\ (0 <= x')%Q /\ (0 < power')%Q /\
      approx u (2 * (j + q)) (/ bq (e + length r)) power' /\
      approx u (3 * (nb + q)) (inject_Z (eval_from b E r) / bq (e + length r)) x'.
  Proof.
    induction fuel as [|fuel IH]; intros s x power nb j E e Lf F J HE X P A B r.
    - destruct s; [|cbn in Lf; lia]. exists O, x, power. cbn [digit_run length eval_from point_loop]. rewrite !Nat.add_0_r. repeat split; auto; lia || apply A || apply B.
    - destruct s as [|c s]; [exists O, x, power; cbn [digit_run length eval_from point_loop]; rewrite !Nat.add_0_r; repeat split; auto; lia || apply A || apply B|].
      cbn [point_loop]. rewrite parse_int_spec by assumption. cbv zeta. fold r.
      destruct (Nat.eqb_spec (length (firstn L r)) 0) as [Z0 | N0].
      + assert (R0 : r = []). { rewrite firstn_length in Z0. destruct (max_length_spec b Hb). destruct r; [easy | cbn in Z0; lia]. }
        rewrite R0. exists O, x, power. cbn [digit_run length eval_from point_loop]. rewrite !Nat.add_0_r. repeat split; auto; lia || apply A || apply B.
      + destruct (block_split (c :: s) r _ eq_refl eq_refl N0) as (Ln & Lr & Es & Er & Ll & Ob).
        set (n := length (firstn L r)) in *.
        assert (Fd : Forall (fun d => 0 <= d < b) (firstn L r)).
        { pose proof (digit_run_bound b (c :: s)) as D. fold r in D. rewrite Er in D. now apply Forall_app in D. }
        assert (Hp : 0 <= eval b (firstn L r)) by (apply eval_nonneg; auto; lia).
        destruct (point_block j e power n Ln P A) as (P' & A'). cbv zeta in P', A'.
        set (power' := rnd (power / pow_float rnd b n)%Q) in *.
        destruct (point_value nb j E (eval b (firstn L r)) x e power' J HE Hp X P' n B A') as (X' & B'). cbv zeta in X', B'.
        set (x' := rnd (x + rnd (rnd (inject_Z (eval b (firstn L r))) * power'))%Q) in *.
        assert (EF : E * b ^ Z.of_nat n + eval b (firstn L r) = eval_from b E (firstn L r)) by (unfold n; now rewrite <- eval_from_split).
        rewrite EF in B'.
        assert (HE' : 0 <= eval_from b E (firstn L r)) by (apply eval_nonneg; auto; lia).
        assert (Fs : Forall is_char (skipn n (c :: s))).
        { apply Forall_forall. intros y Hy. rewrite Forall_forall in F. apply F. rewrite <- (firstn_skipn n (c :: s)). apply in_or_app. now right. }
        destruct (IH (skipn n (c :: s)) x' power' (S nb) (S j) (eval_from b E (firstn L r)) (e + n)%nat ltac:(lia) Fs ltac:(lia) HE' X' P' A' B')
          as (q & x2 & p2 & E2 & Q1 & Q2 & X2 & P2 & A2 & B2).
        rewrite Es in *. exists (S q), x2, p2. rewrite E2. cbn [bind].
        assert (Lt : (n + length (skipn n r) = length r)%nat) by (rewrite skipn_length; lia).
        rewrite <- Nat.add_assoc, Lt in A2, B2. rewrite <- eval_from_app, <- Er in B2.
        replace (j + S q)%nat with (S j + q)%nat by lia. replace (nb + S q)%nat with (S nb + q)%nat by lia.
        split; [now rewrite Lt|]. split; [|split; [intros R0; rewrite R0 in Lr; cbn in Lr; lia | auto]].
        destruct Ob as [Ob | Ob]; [nia | rewrite (Q2 Ob); nia].
  Qed.
  Lemma integral_loop_spec fuel : forall s x nb E, (length s <= fuel)%nat -> Forall is_char s ->
    (1 <= nb)%nat -> 0 <= E -> (0 <= x)%Q -> approx u (3 * nb) (inject_Z E) x ->
    let r := digit_run b s in
    (forall t, skipn (length r) s = 46 :: t -> let es := digit_run b t in
        exists q x' power', integral_loop rnd b L fuel x 1 s = Ok (length r + 1 + length es, (FPoint, (x', power')))%nat /\
          (L * q <= length r + length es + L + L)%nat /\ (r = [] -> L * q <= length es + L)%nat /\ (0 <= x')%Q /\ (0 < power')%Q /\
          approx u (2 * q) (/ bq (length es)) power' /\
          approx u (3 * (nb + q)) (inject_Z (eval_from b E (r ++ es)) / bq (length es)) x') /\
    ((forall t, skipn (length r) s <> 46 :: t) ->
        exists q x', integral_loop rnd b L fuel x 1 s = Ok (length r, (FIntegral, (x', 1%Q))) /\
          (L * q <= length r + L)%nat /\ (r = [] -> q = O) /\ (0 <= x')%Q /\ approx u (3 * (nb + q)) (inject_Z (eval_from b E r)) x').
  Proof.
    induction fuel as [|fuel IH]; intros s x nb E Lf F N1 HE X A r.
    - destruct s; [|cbn in Lf; lia]. split; [easy|]. intros _. exists O, x. rewrite Nat.add_0_r. repeat split; auto; lia || apply A.
    - destruct s as [|c s]; [split; [easy|]; intros _; exists O, x; rewrite Nat.add_0_r; repeat split; auto; lia || apply A|].
      cbn [integral_loop]. rewrite parse_int_spec by assumption. cbv zeta. fold r.
      destruct (Nat.eqb_spec (length (firstn L r)) 0) as [Z0 | N0].
      + assert (R0 : r = []). { rewrite firstn_length in Z0. destruct (max_length_spec b Hb). destruct r; [easy | cbn in Z0; lia]. }
        rewrite R0. cbn [length skipn app]. split.
        * intros t Et. injection Et as -> ->. rewrite Z.eqb_refl. inversion_clear F as [|? ? _ Fs]. cbn in Lf.
          destruct (point_loop_spec fuel t x 1 nb 0 E 0) as (q & x2 & p2 & E2 & Q1 & Q2 & X2 & P2 & A2 & B2); auto; try lia; try lra.
          { apply (approx_eq u Hu) with 1%Q; [reflexivity | apply approx_refl]. }
          { apply (approx_eq u Hu) with (inject_Z E); [|exact A]. unfold bq. cbn. field. }
          exists q, x2, p2. cbn [Nat.add]. rewrite E2. cbn [bind Nat.add]. repeat split; auto; lia || apply A2 || apply B2.
        * intros Nt. destruct (Z.eqb_spec c 46) as [-> | Nc]; [now destruct (Nt s)|].
          exists O, x. rewrite Nat.add_0_r. repeat split; auto; lia || apply A.
      + destruct (block_split (c :: s) r _ eq_refl eq_refl N0) as (Ln & Lr & Es & Er & Ll & Ob).
        set (n := length (firstn L r)) in *.
        assert (Fd : Forall (fun d => 0 <= d < b) (firstn L r)).
        { pose proof (digit_run_bound b (c :: s)) as D. fold r in D. rewrite Er in D. now apply Forall_app in D. }
        assert (Hp : 0 <= eval b (firstn L r)) by (apply eval_nonneg; auto; lia).
        destruct (integral_block nb E (eval b (firstn L r)) x n Ln HE Hp X A) as (X' & A'). cbv zeta in X', A'.
        set (x' := rnd (rnd (x * pow_float rnd b n) + rnd (inject_Z (eval b (firstn L r))))%Q) in *.
        assert (EF : E * b ^ Z.of_nat n + eval b (firstn L r) = eval_from b E (firstn L r)) by (unfold n; now rewrite <- eval_from_split).
        rewrite EF in A'. assert (HE' : 0 <= eval_from b E (firstn L r)) by (apply eval_nonneg; auto; lia).
        assert (Fs : Forall is_char (skipn n (c :: s))).
        { apply Forall_forall. intros y Hy. rewrite Forall_forall in F. apply F. rewrite <- (firstn_skipn n (c :: s)). apply in_or_app. now right. }
        specialize (IH (skipn n (c :: s)) x' (S nb) _ ltac:(lia) Fs ltac:(lia) HE' X' A'). cbv zeta in IH. rewrite Es in IH.
        assert (Lt : (n + length (skipn n r) = length r)%nat) by (rewrite skipn_length; lia).
        assert (Sk : skipn (length (skipn n r)) (skipn n (c :: s)) = skipn (length r) (c :: s)).
        { rewrite <- Lt. apply skipn_skipn_add. }
        rewrite Sk in IH.
        split.
        * intros t Et. destruct (proj1 IH t Et) as (q & x2 & p2 & E2 & Q1 & Q2 & X2 & P2 & A2 & B2). exists (S q), x2, p2. rewrite E2. cbn [bind].
          replace (n + (length (skipn n r) + 1 + length (digit_run b t)))%nat with (length r + 1 + length (digit_run b t))%nat by lia.
          split; [reflexivity|].
          rewrite <- eval_from_app, app_assoc, <- Er in B2. replace (nb + S q)%nat with (S nb + q)%nat by lia.
          split; [destruct Ob as [Ob | Ob]; [|specialize (Q2 Ob)]; nia|].
          split; [intros R0; rewrite R0 in Lr; cbn in Lr; lia|].
          split; [exact X2|]. split; [exact P2|]. split; [|exact B2]. apply approx_mono with (2 * q)%nat; auto; try lia; [|lra].
          apply Qlt_le_weak, Qinv_lt_0_compat, bq_pos.
        * intros Nt. destruct (proj2 IH Nt) as (q & x2 & E2 & Q1 & Q2 & X2 & A2). exists (S q), x2. rewrite E2. cbn [bind]. rewrite Lt. split; [reflexivity|].
          rewrite <- eval_from_app, <- Er in A2. replace (nb + S q)%nat with (S nb + q)%nat by lia.
          split; [|split; [intros R0; rewrite R0 in Lr; cbn in Lr; lia | auto]]. destruct Ob as [Ob | Ob]; [nia | rewrite (Q2 Ob); nia].
  Qed.
End Blocks.

(** ** The text, character by character *)
Inductive fabs := AEmpty | ASign (neg : bool) | AInt (neg : bool) (ds : list Z) | APoint (neg : bool) (ds es : list Z).
Definition adelta (b : Z) (a : fabs) (c : Z) : option fabs :=
  match a with
  | AEmpty => if c =? 45 then Some (ASign true) else if c =? 43 then Some (ASign false)
              else match digit_in b c with Some d => Some (AInt false [d]) | None => None end
  | ASign neg => match digit_in b c with Some d => Some (AInt neg [d]) | None => None end
  | AInt neg ds => match digit_in b c with
                   | Some d => Some (AInt neg (ds ++ [d]))
                   | None => if c =? 46 then Some (APoint neg ds []) else None
                   end
  | APoint neg ds es => match digit_in b c with Some d => Some (APoint neg ds (es ++ [d])) | None => None end
  end.
Fixpoint arun (b : Z) (a : fabs) (s : list Z) : nat * fabs :=
  match s with
  | [] => (0%nat, a)
  | c :: s => match adelta b a c with Some a => let (n, r) := arun b a s in (S n, r) | None => (0%nat, a) end
  end.
Lemma arun_app b s t : forall a, arun b a (s ++ t) =
  if (fst (arun b a s) =? length s)%nat then let (n, r) := arun b (snd (arun b a s)) t in (length s + n, r)%nat else arun b a s.
Proof.
  induction s as [|c s IH]; intros a; [cbn; now destruct (arun b a t)|]. cbn [app arun].
  destruct (adelta b a c) as [a'|]; [|reflexivity]. rewrite IH. destruct (arun b a' s) as (n, r). cbn [fst snd length Nat.eqb].
  destruct (n =? length s)%nat; [|reflexivity]. now destruct (arun b r t).
Qed.
Lemma arun_le b s : forall a, (fst (arun b a s) <= length s)%nat.
Proof. induction s as [|c s IH]; intros a; cbn; [lia|]. destruct (adelta b a c) as [a'|]; [|cbn; lia]. specialize (IH a'). destruct (arun b a' s). cbn in *. lia. Qed.
Lemma arun_point b neg ds s : forall es, arun b (APoint neg ds es) s = (length (digit_run b s), APoint neg ds (es ++ digit_run b s)).
Proof.
  induction s as [|c s IH]; intros es; cbn; [now rewrite app_nil_r|]. destruct (digit_in b c) as [d|]; [|now rewrite app_nil_r].
  rewrite IH, <- app_assoc. reflexivity.
Qed.
Lemma arun_int b neg s : forall ds, let r := digit_run b s in
  arun b (AInt neg ds) s = match skipn (length r) s with
                           | c :: t => if c =? 46 then ((length r + 1 + length (digit_run b t))%nat, APoint neg (ds ++ r) (digit_run b t))
                                       else (length r, AInt neg (ds ++ r))
                           | [] => (length r, AInt neg (ds ++ r))
                           end.
Proof.
  induction s as [|c s IH]; intros ds; cbn; [now rewrite app_nil_r|]. destruct (digit_in b c) as [d|] eqn:D.
  - rewrite IH. cbn [length skipn]. rewrite <- app_assoc. cbn [app]. destruct (skipn _ s) as [|y t]; [reflexivity|]. destruct (y =? 46); reflexivity.
  - cbn. rewrite app_nil_r. destruct (c =? 46); [|reflexivity]. rewrite arun_point. reflexivity.
Qed.
Lemma arun_sign b neg s : let r := digit_run b s in
  arun b (ASign neg) s = match r with [] => (0%nat, ASign neg) | _ => arun b (AInt neg []) s end.
Proof. destruct s as [|c s]; [reflexivity|]. cbn. destruct (digit_in b c); reflexivity. Qed.
Lemma digit_not_sign b c d : digit_in b c = Some d -> c <> 45 /\ c <> 43 /\ c <> 46.
Proof. unfold digit_in, digit_of. intros H. repeat split; intros ->; discriminate H. Qed.
Lemma arun_empty b s : let (neg, n) := sign_of true s in
  arun b AEmpty s = match skipn n s with
                    | [] => (n, match n with O => AEmpty | _ => ASign neg end)
                    | _ => match arun b (ASign neg) (skipn n s) with
                           | (0%nat, _) => (n, match n with O => AEmpty | _ => ASign neg end)
                           | (m, a) => ((n + m)%nat, a)
                           end
                    end.
Proof.
  destruct s as [|c s]; [reflexivity|]. cbn [sign_of arun adelta]. rewrite andb_true_r.
  destruct (Z.eqb_spec c 45) as [-> | N1].
  - cbn [skipn]. destruct s as [|d s]; [reflexivity|]. rewrite arun_sign. cbv zeta.
    destruct (digit_run b (d :: s)) eqn:R; [reflexivity|]. rewrite arun_int, R. cbv zeta. cbn [length].
    destruct (skipn _ _) as [|y t]; [reflexivity|]. destruct (y =? 46); reflexivity.
  - destruct (Z.eqb_spec c 43) as [-> | N2].
    + cbn [skipn]. destruct s as [|d s]; [reflexivity|]. rewrite arun_sign. cbv zeta.
      destruct (digit_run b (d :: s)) eqn:R; [reflexivity|]. rewrite arun_int, R. cbv zeta. cbn [length].
      destruct (skipn _ _) as [|y t]; [reflexivity|]. destruct (y =? 46); reflexivity.
    + cbn [skipn]. cbn [arun adelta]. destruct (digit_in b c) as [d|]; [|reflexivity]. now destruct (arun b (AInt false [d]) s).
Qed.
Definition aready (a : fabs) : bool := match a with AInt _ _ | APoint _ _ _ => true | _ => false end.

Section Read.
  Variable u : Q.
  Hypothesis Hu : (0 <= u < 1)%Q.
  Variable rnd : Q -> Q.
  Hypothesis Hr : forall q, (Qabs (rnd q - q) <= u * Qabs q)%Q.
  Variable b : Z.
  Hypothesis Hb : 2 <= b <= 36.
  Notation L := (max_length b).
  Notation bq := (bq b).
  (** [k] is the number of chunks so far. *)
  Definition frep (k : nat) (a : fabs) (p : fparser) : Prop :=
    match a with
    | AEmpty => p = fparser_init
    | ASign neg => f_st p = FSign /\ f_neg p = neg /\ f_power p = 1%Q
    | AInt neg ds => f_st p = FIntegral /\ f_neg p = neg /\ f_power p = 1%Q /\ Forall (fun d => 0 <= d < b) ds /\ (0 <= f_x p)%Q /\
        exists nb, (1 <= nb)%nat /\ (L * nb <= length ds + L * k)%nat /\ approx u (3 * nb) (inject_Z (eval b ds)) (f_x p)
    | APoint neg ds es => f_st p = FPoint /\ f_neg p = neg /\ (0 < f_power p)%Q /\ (0 <= f_x p)%Q /\ Forall (fun d => 0 <= d < b) (ds ++ es) /\
        exists nb j, (j + 1 <= nb)%nat /\ (L * nb <= length ds + length es + L * (k + 1))%nat /\
          approx u (2 * j) (/ bq (length es)) (f_power p) /\ approx u (3 * nb) (inject_Z (eval b (ds ++ es)) / bq (length es)) (f_x p)
    end.
  Lemma frep_mono k k' a p : (k <= k')%nat -> frep k a p -> frep k' a p.
  Proof.
    intros Lk. destruct a; cbn; try tauto.
    - intros (A & B & C & D & E & nb & F & G & H). repeat split; auto. exists nb. split; [exact F|]. split; [nia | exact H].
    - intros (A & B & C & D & E & nb & j & F & G & H & I). repeat split; auto. exists nb, j. split; [exact F|]. split; [nia|]. now split.
  Qed.
  Lemma run_app_bound ds s : Forall (fun d => 0 <= d < b) ds -> Forall (fun d => 0 <= d < b) (ds ++ digit_run b s).
  Proof. intros H. apply Forall_app. split; [exact H | apply digit_run_bound]. Qed.
  Lemma fparse_int k neg ds p s : Forall is_char s -> frep k (AInt neg ds) p ->
    exists p', fparse rnd b L p s = Ok (fst (arun b (AInt neg ds) s), p') /\ frep (S k) (snd (arun b (AInt neg ds) s)) p'.
  Proof.
    intros F (A & B & C & D & E & nb & N1 & N2 & N3). unfold fparse. rewrite A, C, arun_int. cbv zeta.
    assert (HE : 0 <= eval b ds) by (apply eval_nonneg; auto; lia).
    destruct (integral_loop_spec u Hu rnd Hr b Hb (length s) s (f_x p) nb (eval b ds) (le_n _) F N1 HE E N3) as (G1 & G2). cbv zeta in G1.
    assert (No : (forall t, skipn (length (digit_run b s)) s <> 46 :: t) ->
      exists p', (do (m, r) <- integral_loop rnd b L (length s) (f_x p) 1 s;
         Ok (m, {| f_st := fst r; f_neg := f_neg p; f_x := fst (snd r); f_power := snd (snd r) |})) = Ok (length (digit_run b s), p') /\
        frep (S k) (AInt neg (ds ++ digit_run b s)) p').
    { intros Nt. destruct (G2 Nt) as (q & x' & E2 & Q1 & Q2 & X2 & A2). rewrite E2. cbn [bind fst snd]. eexists. split; [reflexivity|].
      cbn [frep f_st f_neg f_power f_x]. repeat split; auto; [now apply run_app_bound|]. exists (nb + q)%nat. split; [lia|]. split; [rewrite app_length; nia|].
      unfold eval in *. now rewrite eval_from_app. }
    destruct (skipn (length (digit_run b s)) s) as [|c t] eqn:Es; [now apply No|]. destruct (Z.eqb_spec c 46) as [-> | Nc].
    - destruct (G1 t eq_refl) as (q & x' & pw & E2 & Q1 & Q2 & X2 & P2 & A2 & B2). rewrite E2. cbn [bind fst snd]. eexists. split; [reflexivity|].
      cbn [frep f_st f_neg f_power f_x]. repeat split; auto; [rewrite <- app_assoc; apply Forall_app; split; [exact D|]; apply run_app_bound, digit_run_bound|].
      exists (nb + q)%nat, q. split; [lia|]. split; [rewrite app_length; nia|]. split; [exact A2|]. rewrite <- app_assoc. unfold eval in *. now rewrite eval_from_app.
    - apply No. congruence.
  Qed.
  Lemma fparse_point k neg ds es p s : Forall is_char s -> frep k (APoint neg ds es) p ->
    exists p', fparse rnd b L p s = Ok (fst (arun b (APoint neg ds es) s), p') /\ frep (S k) (snd (arun b (APoint neg ds es) s)) p'.
  Proof.
    intros F (A & B & C & D & E & nb & j & N1 & N2 & N3 & N4). unfold fparse. rewrite A, arun_point. cbn [fst snd].
    assert (HE : 0 <= eval b (ds ++ es)) by (apply eval_nonneg; auto; lia).
    destruct (point_loop_spec u Hu rnd Hr b Hb (length s) s (f_x p) (f_power p) nb j _ _ (le_n _) F N1 HE D C N3 N4) as (q & x' & pw & E2 & Q1 & Q2 & X2 & P2 & A2 & B2).
    rewrite E2. cbn [bind fst snd]. eexists. split; [reflexivity|].
    cbn [frep f_st f_neg f_power f_x]. repeat split; auto; [rewrite app_assoc; now apply run_app_bound|]. exists (nb + q)%nat, (j + q)%nat.
    rewrite app_length. split; [lia|]. split; [nia|]. split; [exact A2|]. rewrite app_assoc. unfold eval in *. now rewrite eval_from_app.
  Qed.
  (** A state in which the parser has stopped without a number. *)
  Lemma fparse_sign_spec k neg p i s : Forall is_char s -> frep k (ASign neg) p ->
    exists p', fparse_sign rnd b L p i s = Ok ((i + fst (arun b (ASign neg) s))%nat, p') /\
      frep (S k) (snd (arun b (ASign neg) s)) p' /\ (fst (arun b (ASign neg) s) = O -> p' = p).
  Proof.
    intros F (A & B & C). unfold fparse_sign. rewrite parse_int_spec by assumption. cbv zeta. rewrite arun_sign. cbv zeta.
    set (r := digit_run b s). destruct (max_length_spec b Hb) as (L1 & _).
    destruct (Nat.eqb_spec (length (firstn L r)) 0) as [Z0 | N0].
    - assert (R0 : r = []). { rewrite firstn_length in Z0. destruct r; [easy | cbn in Z0; lia]. }
      rewrite R0. cbn [fst snd]. exists p. rewrite Nat.add_0_r. now repeat split.
    - destruct (block_split b s r _ eq_refl eq_refl N0) as (Ln & Lr & Es & Er & Ll & Ob). set (n := length (firstn L r)) in *.
      assert (Fd : Forall (fun d => 0 <= d < b) (firstn L r)).
      { pose proof (digit_run_bound b s) as D. fold r in D. rewrite Er in D. now apply Forall_app in D. }
      assert (Hp : 0 <= eval b (firstn L r)) by (apply eval_nonneg; auto; lia).
      assert (X : (0 <= rnd (inject_Z (eval b (firstn L r))))%Q) by (apply (rnd_nonneg u Hu rnd Hr); now apply injZ_nonneg).
      assert (A1 : approx u (3 * 1) (inject_Z (eval b (firstn L r))) (rnd (inject_Z (eval b (firstn L r))))).
      { apply approx_mono with 1%nat; auto; try lia; [now apply injZ_nonneg|]. apply approx_rnd; auto; try now apply injZ_nonneg. apply approx_refl. }
      assert (Fs : Forall is_char (skipn n s)).
      { apply Forall_forall. intros y Hy. rewrite Forall_forall in F. apply F. rewrite <- (firstn_skipn n s). apply in_or_app. now right. }
      destruct (integral_loop_spec u Hu rnd Hr b Hb (length s) (skipn n s) _ 1 _ ltac:(lia) Fs (le_n _) Hp X A1) as (G1 & G2). cbv zeta in G1.
      rewrite Es in G1, G2. rewrite C.
      assert (Lt : (n + length (skipn n r) = length r)%nat) by (rewrite skipn_length; lia).
      rewrite skipn_skipn_add, Lt in G1, G2.
      assert (R1 : r <> []) by (intros R0; rewrite R0 in Lr; cbn in Lr; lia).
      replace (match r with [] => (0%nat, ASign neg) | _ => arun b (AInt neg []) s end) with (arun b (AInt neg []) s) by (now destruct r).
      rewrite arun_int. cbv zeta. fold r. cbn [app].
      assert (No : (forall t, skipn (length r) s <> 46 :: t) -> exists p',
        (do (m, r0) <- integral_loop rnd b L (length s) (rnd (inject_Z (eval b (firstn L r)))) 1 (skipn n s);
         Ok ((i + n + m)%nat, {| f_st := fst r0; f_neg := f_neg p; f_x := fst (snd r0); f_power := snd (snd r0) |})) = Ok ((i + length r)%nat, p') /\
        frep (S k) (AInt neg r) p' /\ (length r = O -> p' = p)).
      { intros Nt. destruct (G2 Nt) as (q & x' & E2 & Q1 & Q2 & X2 & A2). rewrite E2. cbn [bind fst snd].
        replace (i + n + length (skipn n r))%nat with (i + length r)%nat by lia. eexists. split; [reflexivity|]. split; [|intros; lia].
        cbn [frep f_st f_neg f_power f_x]. repeat split; auto; [apply digit_run_bound|]. exists (1 + q)%nat. split; [lia|].
        split; [destruct Ob as [Ob | Ob]; [nia | rewrite (Q2 Ob); nia]|]. unfold eval in *. rewrite <- eval_from_app, <- Er in A2. exact A2. }
      destruct (skipn (length r) s) as [|c t]; [now apply No|]. destruct (Z.eqb_spec c 46) as [-> | Nc].
      + destruct (G1 t eq_refl) as (q & x' & pw & E2 & Q1 & Q2 & X2 & P2 & A2 & B2). rewrite E2. cbn [bind fst snd].
        replace (i + n + (length (skipn n r) + 1 + length (digit_run b t)))%nat with (i + (length r + 1 + length (digit_run b t)))%nat by lia.
        eexists. split; [reflexivity|]. split; [|intros; lia].
        cbn [frep f_st f_neg f_power f_x]. repeat split; auto; [apply run_app_bound, digit_run_bound|].
        exists (1 + q)%nat, q. split; [lia|]. split; [destruct Ob as [Ob | Ob]; [|specialize (Q2 Ob)]; nia|]. split; [exact A2|].
        unfold eval in *. rewrite <- eval_from_app, app_assoc, <- Er in B2. exact B2.
      + apply No. congruence.
  Qed.
  Lemma fparse_spec k a p s : s <> [] -> Forall is_char s -> frep k a p ->
    exists p', fparse rnd b L p s = Ok (fst (arun b a s), p') /\
      (frep (S k) (snd (arun b a s)) p' \/ (fst (arun b a s) < length s)%nat /\ fready p' = false /\ aready (snd (arun b a s)) = false).
  Proof.
    intros Ns F R. destruct a as [|neg|neg ds|neg ds es].
    - cbn in R. subst p. pose proof (arun_empty b s) as Ea. unfold fparse. cbn [f_st fparser_init f_neg f_x f_power].
      destruct s as [|c s]; [easy|]. clear Ns.
      assert (Sg : sign_parse true false c = (snd (sign_of true (c :: s)), fst (sign_of true (c :: s)))).
      { unfold sign_parse, sign_of. cbn [andb]. rewrite andb_true_r. destruct (c =? 45); [reflexivity|]. destruct (c =? 43); reflexivity. }
      rewrite Sg. destruct (sign_of true (c :: s)) as (neg & n) eqn:En. cbn [fst snd]. rewrite Ea.
      set (p0 := {| f_st := FSign; f_neg := neg; f_x := 0; f_power := 1 |}).
      assert (R0 : frep k (ASign neg) p0) by now repeat split.
      destruct (skipn n (c :: s)) as [|c' s'] eqn:Sk.
      + exists p0. split; [reflexivity|]. left. destruct n as [|n]; [discriminate Sk|]. now repeat split.
      + assert (Fs : Forall is_char (c' :: s')).
        { rewrite <- Sk. apply Forall_forall. intros y Hy. rewrite Forall_forall in F. apply F. rewrite <- (firstn_skipn n (c :: s)). apply in_or_app. now right. }
        destruct (fparse_sign_spec k neg p0 n (c' :: s') Fs R0) as (p' & E & R' & S0). rewrite E.
        destruct (arun b (ASign neg) (c' :: s')) as (m, a') eqn:Er. cbn [fst snd] in *.
        exists p'. destruct m as [|m].
        * cbn [fst snd]. rewrite Nat.add_0_r. split; [reflexivity|]. right. rewrite (S0 eq_refl).
          assert (Ll : length (skipn n (c :: s)) = length (c' :: s')) by now rewrite Sk. rewrite skipn_length in Ll. cbn [length] in *.
          split; [lia|]. split; [reflexivity|]. now destruct n.
        * cbn [fst snd]. split; [reflexivity|]. now left.
    - unfold fparse. rewrite (proj1 R). destruct (fparse_sign_spec k neg p 0 s F R) as (p' & E & R' & _). exists p'. split; [exact E | now left].
    - destruct (fparse_int k neg ds p s F R) as (p' & E & R'). exists p'. split; [exact E | now left].
    - destruct (fparse_point k neg ds es p s F R) as (p' & E & R'). exists p'. split; [exact E | now left].
  Qed.
  Lemma frep_ready k a p : frep k a p -> fready p = aready a.
  Proof. destruct a; cbn; [intros ->; reflexivity | | |]; intros (A & _); unfold fready; now rewrite A. Qed.
  Lemma fexec_spec chunks : forall k a p, Forall (fun s => s <> []) chunks -> Forall is_char (concat chunks) -> frep k a p ->
    exists p', fexec rnd b L p chunks = Ok (fst (arun b a (concat chunks)), p') /\
      let a' := snd (arun b a (concat chunks)) in
      fready p' = aready a' /\ (aready a' = true -> frep (k + length chunks) a' p').
  Proof.
    induction chunks as [|s cs IH]; intros k a p Nc F R.
    - exists p. cbn. split; [reflexivity|]. rewrite Nat.add_0_r. split; [eapply frep_ready; eauto | auto].
    - inversion_clear Nc as [|? ? Ns Nc']. cbn [concat] in *. apply Forall_app in F. destruct F as (Fs & Fc).
      destruct (fparse_spec k a p s Ns Fs R) as (p1 & E1 & R1). rewrite arun_app. pose proof (arun_le b s a) as Le.
      assert (Ex : fexec rnd b L p (s :: cs) = do (n, p2) <- fparse rnd b L p s;
        if (n =? length s)%nat then do (m, p2) <- fexec rnd b L p2 cs; Ok ((n + m)%nat, p2) else Ok (n, p2)) by (destruct s; easy).
      rewrite Ex, E1. cbn [bind]. destruct (Nat.eqb_spec (fst (arun b a s)) (length s)) as [Eq | Ne].
      + destruct R1 as [R1 | (R1 & _)]; [|lia]. destruct (IH (S k) _ p1 Nc' Fc R1) as (p2 & E2 & A2 & B2).
        rewrite E2. cbn [bind]. exists p2. destruct (arun b (snd (arun b a s)) (concat cs)) as (m, a2). cbn [fst snd length] in *.
        rewrite Eq. split; [reflexivity|]. replace (k + S (length cs))%nat with (S k + length cs)%nat by lia. auto.
      + exists p1. split; [reflexivity|]. cbv zeta. destruct R1 as [R1 | (_ & R2 & R3)].
        * split; [eapply frep_ready; eauto|]. intros _. eapply frep_mono; [|exact R1]. cbn [length]. lia.
        * rewrite R2, R3. easy.
  Qed.
End Read.
Lemma max_length_max b n : 2 <= b <= 36 -> b ^ Z.of_nat n < 2 ^ 64 -> (n <= max_length b)%nat.
Proof.
  intros B H. destruct (Nat.le_gt_cases n (max_length b)) as [|G]; [assumption|exfalso].
  assert (E : forall k, (k < 35)%nat -> 2 ^ 64 <=? (Z.of_nat k + 2) ^ Z.of_nat (S (max_length (Z.of_nat k + 2))) = true).
  { intros k Hk. do 35 (destruct k as [|k]; [vm_compute; reflexivity|]). lia. }
  specialize (E (Z.to_nat (b - 2)) ltac:(lia)). rewrite Z2Nat.id in E by lia. replace (b - 2 + 2) with b in E by lia. apply Z.leb_le in E.
  assert (b ^ Z.of_nat (S (max_length b)) <= b ^ Z.of_nat n) by (apply Z.pow_le_mono_r; lia). lia.
Qed.
(** The parts of a text: sign, digits, digits after the point. *)
Lemma arun_text b t : let (neg, n) := sign_of true t in
  let ds := digit_run b (skipn n t) in
  let rest := skipn (length ds) (skipn n t) in
  let point := match rest with c :: _ => c =? 46 | [] => false end in
  let es := if point then digit_run b (tl rest) else [] in
  (ds = [] -> fst (arun b AEmpty t) = n /\ aready (snd (arun b AEmpty t)) = false) /\
  (ds <> [] -> arun b AEmpty t = ((n + length ds + (if point then S (length es) else 0))%nat, if point then APoint neg ds es else AInt neg ds)).
Proof.
  pose proof (arun_empty b t) as E. destruct (sign_of true t) as (neg & n). cbv zeta. rewrite E.
  destruct (skipn n t) as [|c s]; [split; [intros _; now destruct n | easy]|].
  rewrite arun_sign. cbv zeta. set (x := c :: s). destruct (digit_run b x) as [|d ds] eqn:R; [split; [intros _; now destruct n | easy]|].
  rewrite arun_int, R. cbv zeta. split; [easy|]. intros _. destruct (skipn _ x) as [|y r]; [cbn [length]; rewrite Nat.add_0_r; reflexivity|].
  cbn [tl app]. destruct (y =? 46); [|cbn [length]; rewrite Nat.add_0_r; reflexivity]. cbn [length Nat.add]. f_equal. lia.
Qed.
Lemma float_read_spec u rnd base chunks L : (0 <= u < 1)%Q -> (forall q, Qabs (rnd q - q) <= u * Qabs q)%Q ->
  base = 0 \/ 2 <= base <= 36 -> Forall (fun s => s <> []) chunks -> Forall is_char (concat chunks) ->
  let b := if base =? 0 then 10 else base in
  (1 <= L)%nat -> b ^ Z.of_nat L < 2 ^ 64 ->
  let t := concat chunks in
  let (neg, n) := sign_of true t in
  let ds := digit_run b (skipn n t) in
  let rest := skipn (length ds) (skipn n t) in
  let point := match rest with c :: _ => c =? 46 | [] => false end in
  let es := if point then digit_run b (tl rest) else [] in
  (ds = [] -> float_read rnd base chunks = Ok (n, None)) /\
  (ds <> [] -> exists v, float_read rnd base chunks
       = Ok ((n + length ds + (if point then S (length es) else 0))%nat, Some (if neg then (- v)%Q else v)) /\ (0 <= v)%Q /\
     approx u (3 * (length (ds ++ es) / L + length chunks + 1)) (inject_Z (eval b (ds ++ es)) / inject_Z (b ^ Z.of_nat (length es))) v).
Proof.
  intros Hu Hr B Nc F b L1 HL t. assert (Hb : 2 <= b <= 36) by (unfold b; destruct (Z.eqb_spec base 0); lia).
  destruct (fexec_spec u Hu rnd Hr b Hb chunks 0 AEmpty fparser_init Nc F eq_refl) as (p & E & Rd & Rp). cbv zeta in Rd, Rp. fold t in E, Rd, Rp.
  assert (Rr : float_read rnd base chunks = Ok (fst (arun b AEmpty t), if aready (snd (arun b AEmpty t)) then Some (fvalue p) else None)).
  { unfold float_read. change (fbase base) with b. rewrite E. cbn [bind]. now rewrite Rd. }
  pose proof (arun_text b t) as A. destruct (sign_of true t) as (neg & n). cbv zeta in A |- *.
  set (ds := digit_run b (skipn n t)) in *. set (rest := skipn (length ds) (skipn n t)) in *.
  set (point := match rest with c :: _ => c =? 46 | [] => false end) in *. set (es := if point then digit_run b (tl rest) else []) in *.
  destruct A as (A1 & A2). split.
  - intros D0. destruct (A1 D0) as (X & Y). now rewrite Rr, X, Y.
  - intros D0. specialize (A2 D0). rewrite A2 in *. cbn [fst snd] in *.
    pose proof (max_length_max b L Hb HL) as Lm.
    assert (Blk : forall nb, (max_length b * nb <= length (ds ++ es) + max_length b * (length chunks + 1))%nat -> (nb <= length (ds ++ es) / L + length chunks + 1)%nat).
    { intros nb Hn. assert (nb - (length chunks + 1) <= length (ds ++ es) / L)%nat; [|lia]. apply Nat.div_le_lower_bound; [lia|]. nia. }
    destruct point eqn:Ep.
    + cbn [aready] in *. specialize (Rp eq_refl). destruct Rp as (_ & Ng & _ & X & Fd & nb & j & _ & Nb & _ & Ap). exists (f_x p).
      rewrite Rr. unfold fvalue. rewrite Ng. split; [reflexivity|]. split; [exact X|].
      rewrite Nat.add_0_l in Nb. rewrite <- app_length in Nb. specialize (Blk nb Nb).
      apply approx_mono with (3 * nb)%nat; auto; try lia. unfold bq. pose proof (eval_nonneg b 0 (ds ++ es) ltac:(lia) ltac:(lia) Fd) as Ev. fold (eval b (ds ++ es)) in Ev.
      apply Qle_shift_div_l; [apply (bq_pos b Hb)|]. rewrite Qmult_0_l. now apply injZ_nonneg.
    + cbn [aready] in *. specialize (Rp eq_refl). destruct Rp as (_ & Ng & _ & Fd & X & nb & _ & Nb & Ap). exists (f_x p).
      rewrite Rr. unfold fvalue. rewrite Ng. split; [reflexivity|]. split; [exact X|].
      rewrite Nat.add_0_l in Nb. unfold es in *. rewrite app_nil_r in *. specialize (Blk nb ltac:(nia)).
      assert (Ev : 0 <= eval b ds) by (apply (eval_nonneg b 0 ds); auto; lia). apply injZ_nonneg in Ev.
      apply (approx_eq u Hu) with (inject_Z (eval b ds)); [cbn [length]; change (b ^ Z.of_nat 0) with 1; change (inject_Z 1) with 1%Q; field|].
      apply approx_mono with (3 * nb)%nat; auto; lia.
Qed.
Lemma shrink_0 k : (shrink 0 k == 1)%Q.
Proof. induction k as [|k IH]; cbn [shrink]; [reflexivity | rewrite IH; ring]. Qed.
Lemma approx_0 k v w : approx 0 k v w -> (v == w)%Q.
Proof. intros (A & B). rewrite shrink_0 in A, B. lra. Qed.
(** The factor and the number of roundings. *)
Lemma shrink_bernoulli u k : (0 <= u < 1)%Q -> (1 - inject_Z (Z.of_nat k) * u <= shrink u k)%Q.
Proof.
  intros Hu. induction k as [|k IH]; [cbn [shrink]; change (inject_Z (Z.of_nat 0)) with 0%Q; lra|]. cbn [shrink]. rewrite Nat2Z.inj_succ. unfold Z.succ. rewrite inject_Z_plus.
  change (inject_Z 1) with 1%Q. assert (K : (0 <= inject_Z (Z.of_nat k))%Q) by (change 0%Q with (inject_Z 0); rewrite <- Zle_Qle; lia).
  assert (U2 : (0 <= inject_Z (Z.of_nat k) * u * u)%Q) by (repeat apply Qmult_le_0_compat; lra).
  apply Qle_trans with ((1 - u) * (1 - inject_Z (Z.of_nat k) * u))%Q; [generalize dependent (inject_Z (Z.of_nat k)); intros z IH K U2; lra|].
  rewrite !(Qmult_comm (1 - u)). apply Qmult_le_compat_r; [exact IH | lra].
Qed.
Lemma approx_error u k v w : (0 <= u < 1)%Q -> (0 <= v)%Q -> (0 <= w)%Q -> approx u k v w ->
  let e := (inject_Z (Z.of_nat k) * u)%Q in ((1 - e) * Qabs (w - v) <= e * v)%Q.
Proof.
  intros Hu V W (A & B) e. pose proof (shrink_bernoulli u k Hu) as S. fold e in S. pose proof (shrink_bounds u Hu k) as (S1 & S2).
  assert (E0 : (0 <= e)%Q) by (apply Qmult_le_0_compat; [|lra]; change 0%Q with (inject_Z 0); rewrite <- Zle_Qle; lia).
  generalize dependent (shrink u k). intros s. intros. destruct (Qlt_le_dec e 1) as [E1 | E1].
  - assert (X : ((1 - e) * v <= w)%Q) by nra. assert (Y : ((1 - e) * w <= v)%Q) by nra.
    apply Qabs_case; intros; nra.
  - assert (0 <= Qabs (w - v))%Q by apply Qabs_nonneg. nra.
Qed.

(** ** Booleans *)
Lemma mismatch_app p s t : mismatch p (s ++ t) =
  if (mismatch p s =? length s)%nat then (length s + mismatch (skipn (length s) p) t)%nat else mismatch p s.
Proof.
  revert p. induction s as [|c s IH]; intros p; [destruct p; cbn; auto|].
  destruct p as [|d p]; [reflexivity|]. cbn [app mismatch]. destruct (d =? c); [|reflexivity]. rewrite IH. cbn [length skipn Nat.eqb]. now destruct (mismatch p s =? length s)%nat.
Qed.
Lemma qexec_suffix alpha chunks : forall p, Forall (fun s => s <> []) chunks -> q_empty p = false ->
  qexec alpha p chunks = Ok (mismatch (q_pending p) (concat chunks),
    {| q_x := q_x p; q_empty := false; q_pending := skipn (mismatch (q_pending p) (concat chunks)) (q_pending p) |}).
Proof.
  induction chunks as [|s cs IH]; intros p N E.
  - cbn. destruct p as [x e q]. cbn in *. subst e. now destruct q.
  - inversion_clear N as [|? ? Ns Nc]. destruct s as [|c s]; [easy|]. cbn [qexec]. unfold qparse. rewrite E. unfold data_parse. cbn [bind].
    cbn [concat]. rewrite mismatch_app. destruct (Nat.eqb_spec (mismatch (q_pending p) (c :: s)) (length (c :: s))) as [Eq | _]; [|reflexivity].
    rewrite IH by auto. cbn [bind q_x q_pending]. rewrite Eq. now rewrite skipn_skipn_add.
Qed.
Lemma bool_read_alpha chunks : Forall (fun s => s <> []) chunks ->
  let t := concat chunks in let x := match t with c :: _ => c =? 116 | [] => false end in
  let w := if x then true_s else false_s in
  bool_read true chunks = Ok (mismatch w t, if (mismatch w t =? length w)%nat then Some x else None).
Proof.
  intros N t x w. destruct chunks as [|s cs]; [reflexivity|]. inversion_clear N as [|? ? Ns Nc]. destruct s as [|c s]; [easy|].
  unfold bool_read. cbn [qexec]. unfold qparse. cbn [q_empty qparser_init]. unfold data_parse. cbn [q_pending q_x q_empty bind].
  change (c =? 116) with x. fold w. unfold t. cbn [concat]. rewrite mismatch_app.
  assert (Rd : forall n, (n <= length w)%nat -> qready {| q_x := x; q_empty := false; q_pending := skipn n w |} = (n =? length w)%nat).
  { intros n Hn. unfold qready. cbn [q_pending q_empty]. assert (Ls : length (skipn n w) = (length w - n)%nat) by apply skipn_length.
    destruct (Nat.eqb_spec n (length w)); destruct (skipn n w); cbn in Ls |- *; auto; lia. }
  assert (Ml : forall p s, (mismatch p s <= length p)%nat).
  { induction p as [|y p IHp]; intros [|z q]; cbn; try lia. destruct (y =? z); [specialize (IHp q)|]; lia. }
  destruct (Nat.eqb_spec (mismatch w (c :: s)) (length (c :: s))) as [Eq | Ne].
  - rewrite qexec_suffix by auto. cbn [bind q_x q_pending q_empty]. rewrite Eq. rewrite skipn_skipn_add.
    pose proof (Ml (skipn (length (c :: s)) w) (concat cs)) as M. rewrite skipn_length in M. pose proof (Ml w (c :: s)) as M2. rewrite Eq in M2.
    rewrite Rd by lia. reflexivity.
  - cbn [bind]. rewrite Rd by apply Ml. reflexivity.
Qed.
Lemma bool_read_digit chunks : Forall (fun s => s <> []) chunks ->
  bool_read false chunks = Ok (match concat chunks with
    | c :: _ => if c =? 49 then (1%nat, Some true) else if c =? 48 then (1%nat, Some false) else (0%nat, None)
    | [] => (0%nat, None) end).
Proof.
  intros N. destruct chunks as [|s cs]; [reflexivity|]. inversion_clear N as [|? ? Ns Nc]. destruct s as [|c s]; [easy|].
  unfold bool_read. cbn [qexec]. unfold qparse. cbn [q_empty qparser_init q_pending concat app].
  assert (T : forall x, (do (n, p) <- (do (n, p) <- Ok (1%nat, {| q_x := x; q_empty := false; q_pending := [] |});
      if (n =? length (c :: s))%nat then do (m, p0) <- qexec false p cs; Ok ((n + m)%nat, p0) else Ok (n, p));
      Ok (n, if qready p then Some (q_x p) else None)) = Ok (1%nat, Some x)).
  { intros x. cbn [bind]. destruct (1 =? length (c :: s))%nat; [|reflexivity]. rewrite qexec_suffix by auto. cbn [bind q_x q_pending mismatch]. now destruct (concat cs). }
  destruct (Z.eqb_spec c 49) as [-> | N1]; cbn [orb]; [apply T|]. destruct (Z.eqb_spec c 48) as [-> | N2]; [apply T|]. reflexivity.
Qed.
Lemma mismatch_spec w t : firstn (mismatch w t) t = firstn (mismatch w t) w /\
  (mismatch w t = length w \/ nth_error t (mismatch w t) <> nth_error w (mismatch w t)) /\ (mismatch w t <= length w)%nat.
Proof.
  revert t. induction w as [|c w IH]; intros [|d t]; cbn; try (repeat split; auto; try lia; right; discriminate).
  destruct (Z.eqb_spec c d) as [-> | N]; cbn.
  - destruct (IH t) as (A & B & C). rewrite A. repeat split; [|lia]. destruct B; [left; congruence | now right].
  - repeat split; [right; congruence | lia].
Qed.
