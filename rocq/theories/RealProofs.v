(** Proofs about the output of floating point numbers: RealModel.v. *)
From Coq Require Import ZArith List Bool Lia QArith Qround Qabs Lqa.
From Verif Require Import Outcome IntTextModel IntTextProofs RealModel.
Import ListNotations.
Local Open Scope Z_scope.

(** No prefix announcing the base is printed. *)
Definition plain (f : fmt) : Prop := f_showbase f = false \/ (f_base f <> 8 /\ f_base f <> 16).

Lemma uitoa_plain cap f x n buf :
  2 <= f_base f <= 36 -> plain f -> 0 <= x < f_base f ^ Z.of_nat n -> (1 <= n <= 64)%nat ->
  Z.of_nat (length buf) + Z.of_nat n <= cap ->
  exists ds, uitoa cap f x (f_base f) buf = Ok (map (numeral_char (f_uppercase f)) ds ++ buf)
             /\ canonical (f_base f) x ds /\ (length ds <= n)%nat.
Proof.
  intros B P X N C. unfold uitoa. set (b := f_base f) in *.
  assert (NP : forall c, c = 8 \/ c = 16 -> f_showbase f && negb (x =? 0) && (b =? c) = false).
  { intros c Hc. destruct P as [->|[P1 P2]]; [reflexivity|].
    replace (b =? c) with false; [apply andb_false_r|]. symmetry. apply Z.eqb_neq. fold b in P1, P2. lia. }
  destruct (Z.leb_spec b 10) as [B10|B10].
  - destruct (digits_loop_spec b cap true 0 ltac:(lia) n uitoa_fuel x buf X ltac:(unfold uitoa_fuel; lia) C)
      as (ds & E & Cn & L).
    rewrite E. cbn [bind]. rewrite (NP 8) by auto. exists ds. split; [|auto].
    f_equal. f_equal. apply map_ext_in. intros d Hd. destruct Cn as (_ & F & _).
    rewrite Forall_forall in F. specialize (F d Hd).
    unfold digit_char, numeral_char. replace (d <? 10) with true by (symmetry; apply Z.ltb_lt; lia). reflexivity.
  - destruct (digits_loop_spec b cap false (if f_uppercase f then 65 else 97) ltac:(lia) n uitoa_fuel x buf X
                ltac:(unfold uitoa_fuel; lia) C) as (ds & E & Cn & L).
    rewrite E. cbn [bind]. rewrite (NP 16) by auto. exists ds. auto.
Qed.

Lemma eval_zeros b n ds : eval b (repeat 0 n ++ ds) = eval b ds.
Proof.
  unfold eval. rewrite eval_from_app. f_equal. induction n as [|n IH]; [reflexivity|].
  cbn [repeat eval_from]. exact IH.
Qed.

Lemma eval_from_shift b ds : forall a, eval_from b a ds = a * b ^ Z.of_nat (length ds) + eval b ds.
Proof.
  unfold eval. induction ds as [|d ds IH]; intro a; cbn [eval_from length]; [cbn; lia|].
  rewrite IH, (IH (0 * b + d)). rewrite Nat2Z.inj_succ, Z.pow_succ_r by lia. lia.
Qed.

Lemma eval_app b ds es : eval b (ds ++ es) = eval b ds * b ^ Z.of_nat (length es) + eval b es.
Proof. unfold eval at 1. rewrite eval_from_app, eval_from_shift. reflexivity. Qed.

(** The fraction has exactly [p] digits. *)
Lemma put_fraction_spec cap f p fp :
  2 <= f_base f <= 36 -> plain f -> 0 <= fp < f_base f ^ Z.of_nat p -> f_base f ^ Z.of_nat p < 2 ^ 64 ->
  Z.of_nat p <= cap ->
  exists ds, put_fraction cap f p fp (f_base f) = Ok (map (numeral_char (f_uppercase f)) ds)
             /\ length ds = p /\ eval (f_base f) ds = fp /\ Forall (fun d => 0 <= d < f_base f) ds.
Proof.
  intros B P X Lt C. destruct p as [|p].
  - exists []. cbn in *. repeat split; [unfold eval; cbn; lia | constructor].
  - assert (Hp : Z.of_nat (S p) < 64).
    { apply (Z.pow_lt_mono_r_iff 2); [lia|lia|].
      eapply Z.le_lt_trans; [|exact Lt]. apply Z.pow_le_mono_l; lia. }
    destruct (uitoa_plain cap f fp (S p) [] B P X ltac:(lia) ltac:(cbn [length]; lia)) as (ds & E & (Ev & F & _) & L).
    unfold put_fraction. rewrite E, app_nil_r. cbn [bind]. rewrite map_length.
    replace (length ds <=? S p)%nat with true by (symmetry; apply Nat.leb_le; lia).
    exists (repeat 0 (S p - length ds) ++ ds). split; [|split; [|split]].
    + f_equal. rewrite map_app. f_equal. generalize (S p - length ds)%nat.
      induction n as [|n IH]; [reflexivity|]. cbn [repeat map]. rewrite <- IH. reflexivity.
    + rewrite app_length, repeat_length. lia.
    + now rewrite eval_zeros.
    + apply Forall_app. split; [|exact F]. apply Forall_forall. intros d Hd.
      apply repeat_spec in Hd. subst. lia.
Qed.

(** Number of digits reserved for the integer part (real_write.hpp:82-84). *)
Definition reserved (b : Z) : nat := if b <? 10 then 64%nat else 20%nat.
Lemma reserved_spec b : digit_count 64 (2 ^ 64 - 1) (if b <? 10 then 2 else 10) = Z.of_nat (reserved b).
Proof. unfold reserved. destruct (b <? 10); vm_compute; reflexivity. Qed.

Lemma reserved_enough b : 2 <= b <= 36 -> 2 ^ 64 <= b ^ Z.of_nat (reserved b).
Proof.
  intro B. unfold reserved. destruct (Z.ltb_spec b 10).
  - transitivity (2 ^ Z.of_nat 64); [vm_compute; discriminate | apply Z.pow_le_mono_l; lia].
  - transitivity (10 ^ Z.of_nat 20); [vm_compute; discriminate | apply Z.pow_le_mono_l; lia].
Qed.

Lemma reserved_sign b x : 2 <= b <= 36 -> (b <> 2 /\ b <> 10) \/ x < 2 ^ 63 -> 0 <= x < 2 ^ 64 ->
  x < b ^ Z.of_nat (reserved b - 1).
Proof.
  intros B H X. unfold reserved. destruct (Z.ltb_spec b 10); cbn [Nat.sub].
  - destruct H as [H|H].
    + eapply Z.lt_le_trans; [apply X|]. transitivity (3 ^ Z.of_nat 63); [vm_compute; discriminate | apply Z.pow_le_mono_l; lia].
    + eapply Z.lt_le_trans; [apply H|]. transitivity (2 ^ Z.of_nat 63); [vm_compute; discriminate | apply Z.pow_le_mono_l; lia].
  - destruct H as [H|H].
    + eapply Z.lt_le_trans; [apply X|]. transitivity (11 ^ Z.of_nat 19); [vm_compute; discriminate | apply Z.pow_le_mono_l; lia].
    + eapply Z.lt_le_trans; [apply H|]. transitivity (10 ^ Z.of_nat 19); [vm_compute; discriminate | apply Z.pow_le_mono_l; lia].
Qed.

Definition sign_text (f : fmt) (neg : bool) : list Z := if neg then [45] else if f_showpos f then [43] else [].
Definition point_text (showpoint : bool) (p : nat) : list Z := if (0 <? p)%nat || showpoint then [46] else [].

(** The text of the number [N / b^p]. *)
Definition shows_number (f : fmt) (showpoint : bool) (p : nat) (neg : bool) (N : Z) (text : list Z) : Prop :=
  exists ds es,
    text = sign_text f neg ++ map (numeral_char (f_uppercase f)) ds ++ point_text showpoint p
           ++ map (numeral_char (f_uppercase f)) es
    /\ canonical (f_base f) (N / f_base f ^ Z.of_nat p) ds
    /\ length es = p /\ Forall (fun d => 0 <= d < f_base f) es
    /\ eval (f_base f) (ds ++ es) = N.

(** The integer printed for the computed fraction. *)
Definition total (b_p ip fp : Z) : Z := if b_p <=? fp then (ip + 1) * b_p else ip * b_p + fp.

Lemma putc_ok cap c buf : Z.of_nat (length buf) < cap -> putc cap c buf = Ok (c :: buf).
Proof. intro H. unfold putc. now replace (Z.of_nat (length buf) <? cap) with true by (symmetry; apply Z.ltb_lt; lia). Qed.

Lemma real_encode_spec rnd f showpoint p neg x :
  let b := f_base f in let bp := b ^ Z.of_nat p in
  let fp := Qfloor (rnd (rnd ((x - inject_Z (Qfloor x)) * rnd (inject_Z bp)) + (1 # 2)))%Q in
  let N := total bp (Qfloor x) fp in
  2 <= b <= 36 -> plain f -> bp < 2 ^ 64 -> 0 <= Qfloor x -> 0 <= fp < 2 ^ 64 -> N < 2 ^ 64 * bp ->
  sign_text f neg = [] \/ (b <> 2 /\ b <> 10) \/ N < 2 ^ 63 * bp ->
  exists text, real_encode rnd f showpoint p neg (RFin x) = Ok text /\ shows_number f showpoint p neg N text.
Proof.
  intros b bp fp N B P Lt Hip Hfp HN HS.
  assert (Bp : 0 < bp) by (apply Z.pow_pos_nonneg; lia).
  set (ip' := if bp <=? fp then Qfloor x + 1 else Qfloor x).
  set (fp' := if bp <=? fp then 0 else fp).
  assert (EN : N = ip' * bp + fp' /\ 0 <= fp' < bp /\ 0 <= ip').
  { unfold N, total, ip', fp'. destruct (Z.leb_spec bp fp); lia. }
  destruct EN as (EN & Hf' & Hi').
  assert (Hi64 : ip' < 2 ^ 64) by nia.
  assert (Qx : Qfloor x < 2 ^ 64) by (unfold ip' in Hi64; destruct (bp <=? fp); lia).
  assert (ED : N / bp = ip') by (symmetry; apply (Z.div_unique_pos _ _ _ fp'); lia).
  unfold real_encode. fold b.
  rewrite (Z.mod_small (b ^ Z.of_nat p)) by (fold bp; lia). fold bp. fold fp.
  replace (2 ^ 64 <=? Qfloor x) with false by (symmetry; apply Z.leb_gt; lia).
  replace (2 ^ 64 <=? fp) with false by (symmetry; apply Z.leb_gt; lia).
  cbn [orb]. cbv zeta. fold fp'.
  replace (if bp <=? fp then (Qfloor x + 1) mod 2 ^ 64 else Qfloor x) with ip'.
  2:{ unfold ip' in *. destruct (bp <=? fp); [|reflexivity]. rewrite Z.mod_small by lia. reflexivity. }
  rewrite reserved_spec. set (D := reserved b). set (cap := Z.of_nat D + 1 + Z.of_nat p).
  destruct (put_fraction_spec cap f p fp' B P Hf' Lt ltac:(lia)) as (es & E1 & L1 & V1 & F1).
  fold b in E1. rewrite E1. cbn [bind].
  assert (E2 : (if (0 <? p)%nat || showpoint then putc cap 46 (map (numeral_char (f_uppercase f)) es)
                else Ok (map (numeral_char (f_uppercase f)) es))
               = Ok (point_text showpoint p ++ map (numeral_char (f_uppercase f)) es)).
  { unfold point_text. destruct ((0 <? p)%nat || showpoint); [|reflexivity].
    apply putc_ok. rewrite map_length. lia. }
  rewrite E2. cbn [bind].
  set (buf := point_text showpoint p ++ map (numeral_char (f_uppercase f)) es).
  assert (Lb : (length buf <= p + 1)%nat).
  { unfold buf, point_text. rewrite app_length, map_length. destruct ((0 <? p)%nat || showpoint); cbn [length]; lia. }
  assert (D20 : (20 <= D <= 64)%nat) by (unfold D, reserved; destruct (b <? 10); lia).
  assert (Fin : forall n, (1 <= n <= D)%nat -> ip' < b ^ Z.of_nat n ->
            exists ds, uitoa cap f ip' b buf = Ok (map (numeral_char (f_uppercase f)) ds ++ buf)
                       /\ canonical b ip' ds /\ (length ds <= n)%nat).
  { intros n Hn Hx. apply uitoa_plain; auto; lia. }
  assert (Val : forall ds, canonical b ip' ds -> eval b (ds ++ es) = N).
  { intros ds (Ev & _). fold b in V1. rewrite eval_app, Ev, V1, L1. fold bp. lia. }
  unfold shows_number. fold b bp. rewrite ED.
  assert (HS' : sign_text f neg = [] \/ ip' < b ^ Z.of_nat (D - 1)).
  { destruct HS as [H|H]; [auto|]. right. apply reserved_sign; [lia| |lia]. destruct H as [H|H]; [auto|right; nia]. }
  destruct HS' as [H|H].
  - destruct (Fin D ltac:(lia) ltac:(assert (R := reserved_enough b B); fold D in R; lia)) as (ds & E3 & C3 & L3).
    rewrite E3. cbn [bind].
    exists (map (numeral_char (f_uppercase f)) ds ++ buf).
    split; [unfold put_sign; unfold sign_text in H; destruct neg; [discriminate|]; destruct (f_showpos f); [discriminate|reflexivity]|].
    exists ds, es. rewrite H. unfold buf. auto 10.
  - destruct (Fin (D - 1)%nat ltac:(lia) H) as (ds & E3 & C3 & L3).
    rewrite E3. cbn [bind].
    exists (sign_text f neg ++ map (numeral_char (f_uppercase f)) ds ++ buf).
    split; [|exists ds, es; unfold buf; auto 10].
    unfold put_sign, sign_text.
    assert (Lc : Z.of_nat (length (map (numeral_char (f_uppercase f)) ds ++ buf)) < cap).
    { rewrite app_length, map_length. lia. }
    destruct neg; [now rewrite putc_ok|]. destruct (f_showpos f); [now rewrite putc_ok|reflexivity].
Qed.

(** ** The rounding error *)
Lemma floor_bounds x : (inject_Z (Qfloor x) <= x /\ x < inject_Z (Qfloor x) + 1)%Q.
Proof.
  split; [apply Qfloor_le|]. assert (H := Qlt_floor x). rewrite inject_Z_plus in H. exact H.
Qed.

Lemma inject_le a b : (inject_Z a <= inject_Z b)%Q <-> a <= b.
Proof. rewrite <- Zle_Qle. reflexivity. Qed.

(** A fraction computed with error at most [e] gives a total with error at most 1/2 + e. *)
Lemma total_error (x t e : Q) (bp : Z) : 0 < bp ->
  (Qabs (t - ((x - inject_Z (Qfloor x)) * inject_Z bp + (1 # 2))) <= e)%Q ->
  (Qabs (inject_Z (total bp (Qfloor x) (Qfloor t)) - x * inject_Z bp) <= (1 # 2) + e)%Q.
Proof.
  intros Bp H. apply Qabs_Qle_condition in H. apply Qabs_Qle_condition.
  destruct (floor_bounds t) as [T1 T2]. destruct (floor_bounds x) as [X1 X2].
  assert (Bq : (0 < inject_Z bp)%Q) by (change 0%Q with (inject_Z 0); now rewrite <- Zlt_Qlt).
  unfold total. destruct (Z.leb_spec bp (Qfloor t)) as [L|L].
  - apply inject_le in L.
    replace ((Qfloor x + 1) * bp) with (Qfloor x * bp + bp) by lia.
    rewrite inject_Z_plus, inject_Z_mult.
    assert (G : (0 <= (inject_Z (Qfloor x) + 1 - x) * inject_Z bp)%Q) by (apply Qmult_le_0_compat; lra).
    set (I := inject_Z (Qfloor x)) in *. set (B := inject_Z bp) in *. set (T := inject_Z (Qfloor t)) in *.
    split.
    + setoid_replace (I * B + B - x * B)%Q with ((I + 1 - x) * B)%Q by ring.
      assert (0 <= e)%Q by lra. lra.
    + assert (Z1 : ((x - I) * B == x * B - I * B)%Q) by ring. lra.
  - rewrite inject_Z_plus, inject_Z_mult.
    set (I := inject_Z (Qfloor x)) in *. set (B := inject_Z bp) in *. set (T := inject_Z (Qfloor t)) in *.
    assert (Z1 : ((x - I) * B == x * B - I * B)%Q) by ring. lra.
Qed.
