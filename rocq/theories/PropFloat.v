(** C103, C104: text input of floating point numbers and booleans. *)
From Coq Require Import ZArith List Bool Lia QArith Qabs Qpower Lqa.
From Verif Require Import Outcome StringModel IntTextModel IntTextProofs RealModel RealProofs FloatTextModel FloatTextProofs PropReal.
Import ListNotations.
Local Open Scope Z_scope.

(** * C103 *)
Definition signed (neg : bool) (q : Q) : Q := if neg then (- q)%Q else q.
(** [numeral b t n neg ds es]: the longest prefix of [t] which is a number has [n]
    characters: an optional sign, the digits [ds], and if the point follows it and the
    digits [es]. *)
Definition numeral (b : Z) (t : list Z) (n : nat) (neg : bool) (ds es : list Z) : Prop :=
  exists sg rest, t = sg ++ rest /\ (sg = [45] /\ neg = true \/ sg = [43] /\ neg = false \/
      sg = [] /\ neg = false /\ (forall r, t <> 45 :: r /\ t <> 43 :: r)) /\
    digit_run b rest = ds /\
    ((exists r, skipn (length ds) rest = 46 :: r /\ digit_run b r = es /\ n = (length sg + length ds + 1 + length es)%nat) \/
     (forall r, skipn (length ds) rest <> 46 :: r) /\ es = [] /\ n = (length sg + length ds)%nat).
Lemma sign_split t : let (neg, n) := sign_of true t in
  exists sg, t = sg ++ skipn n t /\ length sg = n /\ (sg = [45] /\ neg = true \/ sg = [43] /\ neg = false \/
      sg = [] /\ neg = false /\ (forall r, t <> 45 :: r /\ t <> 43 :: r)).
Proof.
  destruct t as [|c t]; [exists []; repeat split; auto; right; right; repeat split; auto; discriminate|]. cbn [sign_of]. rewrite andb_true_r.
  destruct (Z.eqb_spec c 45) as [-> | N1]; [exists [45]; repeat split; auto|].
  destruct (Z.eqb_spec c 43) as [-> | N2]; [exists [43]; repeat split; auto|].
  exists []. repeat split; auto. right. right. repeat split; auto; congruence.
Qed.
Lemma sign_unique t sg rest neg : t = sg ++ rest -> (sg = [45] /\ neg = true \/ sg = [43] /\ neg = false \/
      sg = [] /\ neg = false /\ (forall r, t <> 45 :: r /\ t <> 43 :: r)) -> sign_of true t = (neg, length sg) /\ skipn (length sg) t = rest.
Proof.
  intros -> [(-> & ->) | [(-> & ->) | (-> & -> & N)]]; [now split | now split|]. cbn. split; [|reflexivity].
  destruct rest as [|c r]; [reflexivity|]. cbn. rewrite andb_true_r. destruct (N r) as (N1 & N2). cbn in N1, N2.
  destruct (Z.eqb_spec c 45) as [-> | ]; [easy|]. destruct (Z.eqb_spec c 43) as [-> | ]; [easy|]. reflexivity.
Qed.

(** Any base from 2 to 36 (0 is 10), any division of the text into pieces. [u] bounds
    the relative error of one operation; [L] digits have a value below 2^64.  The
    characters consumed and success depend on the text only; the value is the
    number up to the factor (1-u)^k with k = 3 (digits / L + pieces + 1). *)
Theorem C103_read : forall u rnd base L chunks n neg ds es,
  (0 <= u < 1)%Q -> (forall q, Qabs (rnd q - q) <= u * Qabs q)%Q ->
  base = 0 \/ 2 <= base <= 36 ->
  let b := if base =? 0 then 10 else base in
  (1 <= L)%nat -> b ^ Z.of_nat L < 2 ^ 64 ->
  Forall (fun s => s <> []) chunks -> Forall is_char (concat chunks) ->
  numeral b (concat chunks) n neg ds es -> ds <> [] ->
  let k := (3 * (length (ds ++ es) / L + length chunks + 1))%nat in
  let q := (inject_Z (eval b (ds ++ es)) / inject_Z (b ^ Z.of_nat (length es)))%Q in
  exists v, float_read rnd base chunks = Ok (n, Some (signed neg v)) /\ (0 <= v)%Q /\
    ((1 - u) ^ Z.of_nat k * q <= v)%Q /\ ((1 - u) ^ Z.of_nat k * v <= q)%Q.
Proof.
  intros u rnd base L chunks n neg ds es Hu Hr B b L1 HL Nc F (sg & rest & Et & Sg & Ed & Ee) D0 k q.
  pose proof (float_read_spec u rnd base chunks L Hu Hr B Nc F L1 HL) as R. cbv zeta in R. fold b in R.
  destruct (sign_unique _ _ _ _ Et Sg) as (Es & Er). rewrite Es, Er, Ed in R.
  assert (Pw : forall m, ((1 - u) ^ Z.of_nat m == shrink u m)%Q).
  { induction m as [|m IH]; [reflexivity|]. cbn [shrink]. rewrite <- IH, Nat2Z.inj_succ. unfold Z.succ. rewrite Qpower_plus by lra.
    change ((1 - u) ^ 1)%Q with (1 - u)%Q. ring. }
  destruct R as (_ & R). specialize (R D0).
  assert (En : es = (if match skipn (length ds) rest with c :: _ => c =? 46 | [] => false end then digit_run b (tl (skipn (length ds) rest)) else []) /\
     n = (length sg + length ds + (if match skipn (length ds) rest with c :: _ => (c =? 46)%Z | [] => false end then S (length es) else 0))%nat).
  { destruct Ee as [(r & E1 & E2 & E3) | (E1 & E2 & E3)].
    - rewrite E1. cbn [Z.eqb Pos.eqb tl]. split; [now rewrite E2 | rewrite E3; lia].
    - destruct (skipn (length ds) rest) as [|c r]; [split; [auto | lia]|]. destruct (Z.eqb_spec c 46) as [-> | _]; [now destruct (E1 r)|]. split; [auto | lia]. }
  destruct En as (En & Em). rewrite <- En, <- Em in R. destruct R as (v & R1 & R2 & R3 & R4).
  exists v. split; [exact R1|]. split; [exact R2|]. unfold k. rewrite !Pw. now split.
Qed.
Print Assumptions C103_read.

(** Without digits nothing is stored; the sign is consumed. *)
Theorem C103_no_digits : forall u rnd base chunks n neg es,
  (0 <= u < 1)%Q -> (forall q, Qabs (rnd q - q) <= u * Qabs q)%Q ->
  base = 0 \/ 2 <= base <= 36 ->
  let b := if base =? 0 then 10 else base in
  Forall (fun s => s <> []) chunks -> Forall is_char (concat chunks) ->
  numeral b (concat chunks) n neg [] es ->
  exists m, float_read rnd base chunks = Ok (m, None) /\ (m <= 1)%nat /\
    (m = 1%nat <-> exists r, concat chunks = 45 :: r \/ concat chunks = 43 :: r).
Proof.
  intros u rnd base chunks n neg es Hu Hr B b Nc F (sg & rest & Et & Sg & Ed & _).
  assert (HL : b ^ Z.of_nat 1 < 2 ^ 64) by (change (Z.of_nat 1) with 1; rewrite Z.pow_1_r; unfold b; destruct (base =? 0); lia).
  pose proof (float_read_spec u rnd base chunks 1 Hu Hr B Nc F (le_n _) HL) as R. cbv zeta in R. fold b in R.
  destruct (sign_unique _ _ _ _ Et Sg) as (Es & Er). rewrite Es, Er, Ed in R.
  destruct R as (R & _). rewrite (R eq_refl). exists (length sg). split; [reflexivity|].
  destruct Sg as [(-> & _) | [(-> & _) | (-> & _ & N)]]; cbn in Et |- *; rewrite Et; split; try lia; split; eauto; try easy.
  intros (r & [E | E]); destruct (N r); congruence.
Qed.
Print Assumptions C103_no_digits.

(** Every text has such a prefix. *)
Lemma numeral_exists b t : exists n neg ds es, numeral b t n neg ds es.
Proof.
  pose proof (sign_split t) as S. destruct (sign_of true t) as (neg & m). destruct S as (sg & Et & _ & Sg).
  set (rest := skipn m t) in *. set (ds := digit_run b rest). destruct (skipn (length ds) rest) as [|c r] eqn:E.
  - exists (length sg + length ds)%nat, neg, ds, [], sg, rest. repeat split; auto. right. rewrite E. repeat split; easy.
  - destruct (Z.eq_dec c 46) as [-> | N].
    + exists (length sg + length ds + 1 + length (digit_run b r))%nat, neg, ds, (digit_run b r), sg, rest. repeat split; auto. left. exists r. auto.
    + exists (length sg + length ds)%nat, neg, ds, [], sg, rest. repeat split; auto. right. rewrite E. repeat split; congruence.
Qed.

(** Exact operations: the value is the number, however the text is divided. *)
Theorem C103_exact : forall base chunks n neg ds es,
  base = 0 \/ 2 <= base <= 36 ->
  let b := if base =? 0 then 10 else base in
  Forall (fun s => s <> []) chunks -> Forall is_char (concat chunks) ->
  numeral b (concat chunks) n neg ds es -> ds <> [] ->
  exists v, float_read exact base chunks = Ok (n, Some v) /\
    (v == signed neg (inject_Z (eval b (ds ++ es)) / inject_Z (b ^ Z.of_nat (length es))))%Q.
Proof.
  intros base chunks n neg ds es B b Nc F N D0.
  assert (HL : b ^ Z.of_nat 1 < 2 ^ 64) by (change (Z.of_nat 1) with 1; rewrite Z.pow_1_r; unfold b; destruct (base =? 0); lia).
  assert (H0 : (0 <= 0 < 1)%Q) by lra.
  assert (Hr : forall q, (Qabs (exact q - q) <= 0 * Qabs q)%Q).
  { intros q. unfold exact. setoid_replace (q - q)%Q with 0%Q by ring. rewrite Qmult_0_l. apply Qle_refl. }
  destruct (C103_read 0 exact base 1 chunks n neg ds es H0 Hr B (le_n _) HL Nc F N D0) as (v & E & _ & A & C). cbv zeta in A, C.
  exists (signed neg v). split; [exact E|]. setoid_replace (1 - 0)%Q with 1%Q in A by ring. setoid_replace (1 - 0)%Q with 1%Q in C by ring.
  rewrite Qpower_1, Qmult_1_l in A, C. fold b in A, C.
  assert (V : (v == inject_Z (eval b (ds ++ es)) / inject_Z (b ^ Z.of_nat (length es)))%Q) by (apply Qle_antisym; assumption).
  unfold signed. destruct neg; now rewrite V.
Qed.
Print Assumptions C103_exact.

(** The error in terms of the number of roundings: (1 - k u) |v - q| <= k u |q|. *)
Theorem C103_error : forall u rnd base L chunks n neg ds es,
  (0 <= u < 1)%Q -> (forall q, Qabs (rnd q - q) <= u * Qabs q)%Q ->
  base = 0 \/ 2 <= base <= 36 ->
  let b := if base =? 0 then 10 else base in
  (1 <= L)%nat -> b ^ Z.of_nat L < 2 ^ 64 ->
  Forall (fun s => s <> []) chunks -> Forall is_char (concat chunks) ->
  numeral b (concat chunks) n neg ds es -> ds <> [] ->
  let k := inject_Z (Z.of_nat (3 * (length (ds ++ es) / L + length chunks + 1))) in
  let q := signed neg (inject_Z (eval b (ds ++ es)) / inject_Z (b ^ Z.of_nat (length es))) in
  exists v, float_read rnd base chunks = Ok (n, Some v) /\ ((1 - k * u) * Qabs (v - q) <= k * u * Qabs q)%Q.
Proof.
  intros u rnd base L chunks n neg ds es Hu Hr B b L1 HL Nc F N D0 k q.
  destruct (C103_read u rnd base L chunks n neg ds es Hu Hr B L1 HL Nc F N D0) as (v & E & V & A & C). cbv zeta in A, C. fold b in A, C.
  exists (signed neg v). split; [exact E|]. set (q0 := (inject_Z (eval b (ds ++ es)) / inject_Z (b ^ Z.of_nat (length es)))%Q) in *.
  assert (Pw : forall m, ((1 - u) ^ Z.of_nat m == shrink u m)%Q).
  { induction m as [|m IH]; [reflexivity|]. cbn [shrink]. rewrite <- IH, Nat2Z.inj_succ. unfold Z.succ. rewrite Qpower_plus by lra.
    change ((1 - u) ^ 1)%Q with (1 - u)%Q. ring. }
  rewrite Pw in A, C. set (kn := (3 * (length (ds ++ es) / L + length chunks + 1))%nat) in *.
  assert (Q0 : (0 <= q0)%Q). { pose proof (shrink_bounds u Hu kn). apply Qle_trans with (shrink u kn * v)%Q; [|exact C]. apply Qmult_le_0_compat; lra. }
  pose proof (approx_error u kn q0 v Hu Q0 V (conj A C)) as Er. cbv zeta in Er. fold k in Er.
  assert (Aq : (Qabs q == q0)%Q) by (unfold q, signed; destruct neg; [rewrite Qabs_opp|]; now apply Qabs_pos).
  assert (Ad : (Qabs (signed neg v - q) == Qabs (v - q0))%Q).
  { unfold q, signed. destruct neg; [|reflexivity]. rewrite <- Qabs_opp. apply Qabs_wd. ring. }
  rewrite Aq, Ad. exact Er.
Qed.
Print Assumptions C103_error.

(** The text of a number, followed by anything which does not continue it, is a
    numeral with its digits. *)
Lemma shown_numeral f showpoint p neg N text chunks rest :
  2 <= f_base f <= 36 -> shows_number f showpoint p neg N text ->
  Forall is_char rest -> (forall c r, rest = c :: r -> digit_in (f_base f) c = None /\ c <> 46) ->
  concat chunks = text ++ rest ->
  exists ds es, numeral (f_base f) (concat chunks) (length text) neg ds es /\ ds <> [] /\ length es = p /\
    eval (f_base f) (ds ++ es) = N /\ (length (ds ++ es) <= length text)%nat /\ Forall is_char (concat chunks).
Proof.
  intros B (ds & es & Et & Cd & Le & Fe & Ev) Fr St Ec. set (b := f_base f) in *.
  assert (Fd : Forall (fun d => 0 <= d < b) ds) by apply Cd.
  assert (D0 : ds <> []) by (destruct Cd as (_ & _ & [-> | (d & tl & -> & _)]); discriminate).
  assert (Fm : forall l, Forall (fun d => 0 <= d < b) l -> Forall is_char (map (numeral_char (f_uppercase f)) l)).
  { intros l Fl. apply Forall_map. eapply Forall_impl; [|exact Fl]. intros d Hd. apply (numeral_digit (f_uppercase f) b d Hd ltac:(lia)). }
  assert (Fc : Forall is_char (concat chunks)).
  { rewrite Ec, Et. repeat (apply Forall_app; split); auto; [unfold sign_text | unfold point_text].
    - destruct neg; [|destruct (f_showpos f)]; repeat constructor; unfold is_char; lia.
    - destruct (_ || _); repeat constructor; unfold is_char; lia. }
  assert (Stp : stops b rest) by (destruct rest as [|c r]; [exact I|]; apply (St c r eq_refl)).
  assert (Hd : forall l, Forall (fun d => 0 <= d < b) l -> l <> [] -> exists c t, map (numeral_char (f_uppercase f)) l = c :: t /\ c <> 45 /\ c <> 43).
  { intros [|d l] Fl Nl; [congruence|]. inversion_clear Fl as [|? ? Dl _]. exists (numeral_char (f_uppercase f) d), (map (numeral_char (f_uppercase f)) l). split; [reflexivity|].
    pose proof (proj1 (numeral_digit (f_uppercase f) b d Dl ltac:(lia))) as Di. destruct (digit_not_sign _ _ _ Di) as (? & ? & ?). auto. }
  assert (Nu : numeral b (concat chunks) (length text) neg ds es).
  { exists (sign_text f neg), (map (numeral_char (f_uppercase f)) ds ++ point_text showpoint p ++ map (numeral_char (f_uppercase f)) es ++ rest).
    rewrite Ec, Et. split; [now rewrite <- !app_assoc|]. split.
    - unfold sign_text. destruct neg; [auto|]. destruct (f_showpos f); [auto|]. right. right. repeat split; auto;
        destruct (Hd ds Fd D0) as (c & t & Em & C1 & C2); rewrite Em; cbn; congruence.
    - assert (Es : digit_run b (map (numeral_char (f_uppercase f)) es ++ rest) = es) by (apply digit_run_numeral; auto; lia).
      unfold point_text. destruct ((0 <? p)%nat || showpoint) eqn:Ep.
      + assert (R : digit_run b (map (numeral_char (f_uppercase f)) ds ++ [46] ++ map (numeral_char (f_uppercase f)) es ++ rest) = ds).
        { apply digit_run_numeral; auto; [lia|]. reflexivity. }
        split; [exact R|]. left. exists (map (numeral_char (f_uppercase f)) es ++ rest). split.
        * rewrite <- (map_length (numeral_char (f_uppercase f)) ds), skipn_app, skipn_all, Nat.sub_diag. reflexivity.
        * split; [exact Es|]. rewrite !app_length, !map_length. cbn. lia.
      + apply orb_false_elim in Ep. destruct Ep as (Ep & _). apply Nat.ltb_ge in Ep. assert (E0 : es = []) by (destruct es; [auto | cbn in Le; lia]).
        rewrite E0. cbn [map app]. split; [apply digit_run_numeral; auto; lia|]. right. split; [|split; [reflexivity|]].
        * intros r. rewrite <- (map_length (numeral_char (f_uppercase f)) ds), skipn_app, skipn_all, Nat.sub_diag. cbn. destruct rest as [|c r']; [discriminate|].
          intros Er. destruct (St c r' eq_refl) as (_ & N46). congruence.
        * rewrite !app_length, !map_length. cbn. lia. }
  exists ds, es. split; [exact Nu|]. split; [exact D0|]. split; [exact Le|]. split; [exact Ev|]. split; [|exact Fc].
  rewrite Et, !app_length, !map_length. lia.
Qed.

(** A number written with [p] digits after the point is read back from the text,
    followed by anything which does not continue it. *)
Theorem C103_round_trip : forall f showpoint p neg x chunks rest,
  2 <= f_base f <= 36 -> plain f -> f_base f ^ Z.of_nat p < 2 ^ 64 ->
  let bp := inject_Z (f_base f ^ Z.of_nat p) in
  (0 <= x)%Q -> (x * bp + (1 # 2) < inject_Z (2 ^ 64) * bp)%Q ->
  sign_text f neg = [] \/ (f_base f <> 2 /\ f_base f <> 10) \/ (x * bp + (1 # 2) < inject_Z (2 ^ 63) * bp)%Q ->
  Forall is_char rest -> (forall c r, rest = c :: r -> digit_in (f_base f) c = None /\ c <> 46) ->
  exists text, real_encode exact f showpoint p neg (RFin x) = Ok text /\
    (Forall (fun s => s <> []) chunks -> concat chunks = text ++ rest ->
     exists v, float_read exact (f_base f) chunks = Ok (length text, Some v) /\ (Qabs (v - signed neg x) * bp <= 1 # 2)%Q).
Proof.
  intros f showpoint p neg x chunks rest B P Lt bp Hx HN HS Fr St.
  destruct (C30_nearest f showpoint p neg x B P Lt Hx HN HS) as (text & N & E & Sh & Nr). fold bp in Nr.
  exists text. split; [exact E|]. intros Nc Ec. set (b := f_base f) in *.
  destruct (shown_numeral f showpoint p neg N text chunks rest B Sh Fr St Ec) as (ds & es & Nu & D0 & Le & Ev & _ & Fc). fold b in Nu, Ev.
  destruct (C103_exact b chunks (length text) neg ds es (or_intror B) Nc Fc) as (v & R & V);
    replace (b =? 0) with false by (symmetry; apply Z.eqb_neq; lia); auto.
  exists v. split; [exact R|]. replace (b =? 0) with false in V by (symmetry; apply Z.eqb_neq; lia). rewrite Ev, Le in V. fold bp in V.
  assert (Bp : (0 < bp)%Q) by (apply pow_Q_pos; lia).
  assert (T : (Qabs (v - signed neg x) == Qabs (inject_Z N / bp - x))%Q).
  { rewrite V. unfold signed. destruct neg; [|reflexivity]. rewrite <- Qabs_opp. apply Qabs_wd. ring. }
  rewrite T. rewrite <- (Qabs_pos bp) at 2 by lra. rewrite <- Qabs_Qmult.
  setoid_replace ((inject_Z N / bp - x) * bp)%Q with (inject_Z N - x * bp)%Q by (field; lra).
  apply Qabs_Qle_condition. lra.
Qed.
Print Assumptions C103_round_trip.

(** The same with every operation rounded, both when writing and when reading:
    with a relative error [u] of each operation the number read differs from the
    one written by at most half a unit of the last digit and the errors of the
    operations; [k] bounds the number of roundings when reading. *)
Theorem C103_floating_round_trip : forall u rnd f showpoint p neg x chunks rest L,
  (0 <= u <= 1 # 4)%Q -> (forall q, Qabs (rnd q - q) <= u * Qabs q)%Q ->
  2 <= f_base f <= 36 -> plain f ->
  let bp := inject_Z (f_base f ^ Z.of_nat p) in
  (bp + 1 + 4 * u * (bp + 1) <= inject_Z (2 ^ 64))%Q ->
  (0 <= x)%Q -> (x < inject_Z (2 ^ 64) - 1)%Q ->
  sign_text f neg = [] \/ (f_base f <> 2 /\ f_base f <> 10) \/ (x < inject_Z (2 ^ 63) - 1)%Q ->
  (1 <= L)%nat -> f_base f ^ Z.of_nat L < 2 ^ 64 ->
  Forall is_char rest -> (forall c r, rest = c :: r -> digit_in (f_base f) c = None /\ c <> 46) ->
  exists text, real_encode rnd f showpoint p neg (RFin x) = Ok text /\
    (Forall (fun s => s <> []) chunks -> concat chunks = text ++ rest ->
     let k := inject_Z (Z.of_nat (3 * (length text / L + length chunks + 1))) in
     exists v, float_read rnd (f_base f) chunks = Ok (length text, Some v) /\
       ((1 - k * u) * (Qabs (v - signed neg x) * bp) <= (1 # 2) + 4 * u * (bp + 1) + k * u * (x * bp))%Q).
Proof.
  intros u rnd f showpoint p neg x chunks rest L Hu Hr B P bp Hb Hx HN HS L1 HL Fr St.
  destruct (C30_floating rnd u f showpoint p neg x Hr Hu B P Hb Hx HN HS) as (text & N & E & Sh & Nr). fold bp in Nr.
  exists text. split; [exact E|]. intros Nc Ec k.
  destruct (shown_numeral f showpoint p neg N text chunks rest B Sh Fr St Ec) as (ds & es & Nu & D0 & Le & Ev & Lt & Fc).
  set (b := f_base f) in *.
  destruct (C103_error u rnd b L chunks (length text) neg ds es) as (v & R & V);
    try (replace (b =? 0) with false by (symmetry; apply Z.eqb_neq; lia)); auto; [lra|].
  exists v. split; [exact R|]. cbv zeta in V.
  replace (b =? 0) with false in V by (symmetry; apply Z.eqb_neq; lia). rewrite Ev, Le in V. fold bp in V.
  assert (Bp : (0 < bp)%Q) by (apply pow_Q_pos; lia).
  set (k0 := inject_Z (Z.of_nat (3 * (length (ds ++ es) / L + length chunks + 1)))) in V.
  assert (K0 : (0 <= k0)%Q) by (unfold k0; change 0%Q with (inject_Z 0); rewrite <- Zle_Qle; lia).
  assert (Kk : (k0 <= k)%Q).
  { unfold k0, k. rewrite <- Zle_Qle. pose proof (Nat.div_le_mono _ _ L ltac:(lia) Lt). lia. }
  set (q := (inject_Z N / bp)%Q) in V.
  assert (Qb : (q * bp == inject_Z N)%Q) by (unfold q; field; lra).
  assert (Eb : (Qabs bp == bp)%Q) by (apply Qabs_pos; lra).
  assert (M : (Qabs (signed neg q) * bp == Qabs (inject_Z N))%Q).
  { transitivity (Qabs (q * bp)); [|rewrite Qb; reflexivity].
    rewrite Qabs_Qmult, Eb. unfold signed. destruct neg; [rewrite Qabs_opp|]; reflexivity. }
  assert (Mb : (Qabs (inject_Z N) <= x * bp + ((1 # 2) + 4 * u * (bp + 1)))%Q).
  { pose proof (Qmult_le_0_compat x bp Hx ltac:(lra)) as X.
    pose proof (Qabs_triangle (inject_Z N - x * bp) (x * bp)) as T.
    setoid_replace (inject_Z N - x * bp + x * bp)%Q with (inject_Z N) in T by ring.
    rewrite (Qabs_pos (x * bp) X) in T. lra. }
  assert (Dq : (Qabs (signed neg q - signed neg x) * bp == Qabs (inject_Z N - x * bp))%Q).
  { rewrite <- Qb. transitivity (Qabs ((q - x) * bp)); [|apply Qabs_wd; ring].
    rewrite Qabs_Qmult, Eb. unfold signed. destruct neg; [|reflexivity].
    rewrite <- (Qabs_opp (q - x)). apply Qmult_comp; [apply Qabs_wd; ring|reflexivity]. }
  assert (D : (Qabs (v - signed neg x) * bp <= Qabs (v - signed neg q) * bp + ((1 # 2) + 4 * u * (bp + 1)))%Q).
  { pose proof (Qabs_triangle (v - signed neg q) (signed neg q - signed neg x)) as T.
    setoid_replace (v - signed neg q + (signed neg q - signed neg x))%Q with (v - signed neg x)%Q in T by ring.
    apply (Qmult_le_compat_r _ _ bp) in T; [|lra]. rewrite Qmult_plus_distr_l, Dq in T. lra. }
  apply (Qmult_le_compat_r _ _ bp) in V; [|lra].
  rewrite <- !(Qmult_assoc _ (Qabs _) bp), M in V.
  assert (A0 : (0 <= Qabs (v - signed neg q) * bp)%Q) by (apply Qmult_le_0_compat; [apply Qabs_nonneg|lra]).
  assert (D0' : (0 <= Qabs (v - signed neg x) * bp)%Q) by (apply Qmult_le_0_compat; [apply Qabs_nonneg|lra]).
  assert (M0 : (0 <= Qabs (inject_Z N))%Q) by apply Qabs_nonneg.
  assert (X0 : (0 <= x * bp)%Q) by (apply Qmult_le_0_compat; lra).
  assert (B4 : (0 <= 4 * u * (bp + 1))%Q) by (apply Qmult_le_0_compat; lra).
  set (A := (Qabs (v - signed neg q) * bp)%Q) in *. set (Dv := (Qabs (v - signed neg x) * bp)%Q) in *.
  set (Mn := Qabs (inject_Z N)) in *. set (X := (x * bp)%Q) in *. set (e := ((1 # 2) + 4 * u * (bp + 1))%Q) in *.
  assert (Ku : (k0 * u <= k * u)%Q) by (apply Qmult_le_compat_r; lra).
  assert (K0u : (0 <= k0 * u)%Q) by (apply Qmult_le_0_compat; lra).
  set (ku := (k * u)%Q) in *. set (k0u := (k0 * u)%Q) in *.
  assert (E0 : (0 <= e)%Q) by (unfold e; lra).
  assert (G : ((1 - ku) * Dv <= e + ku * X)%Q); [|exact G].
  clearbody A Dv Mn X e ku k0u. clear - V D Mb Ku K0u A0 D0' M0 X0 E0.
  destruct (Qlt_le_dec 1 ku) as [H|H].
  - assert (0 <= (ku - 1) * Dv)%Q by (apply Qmult_le_0_compat; lra).
    assert (0 <= ku * X)%Q by (apply Qmult_le_0_compat; lra). lra.
  - assert (0 <= (1 - ku) * (A + e - Dv))%Q by (apply Qmult_le_0_compat; lra).
    assert (0 <= (ku - k0u) * A)%Q by (apply Qmult_le_0_compat; lra).
    assert (0 <= (ku - k0u) * Mn)%Q by (apply Qmult_le_0_compat; lra).
    assert (0 <= ku * (X + e - Mn))%Q by (apply Qmult_le_0_compat; lra). lra.
Qed.
Print Assumptions C103_floating_round_trip.

(** The texts written for infinity and nan are not read back: they are an error, and
    in base 36 they are numbers. *)
Theorem C103_special_refuted :
  real_encode exact (settings 10 false) false 6 false RInf = Ok [105; 110; 102] /\
  float_read exact 10 [[105; 110; 102]] = Ok (0%nat, None) /\
  real_encode exact (settings 36 false) false 6 false RInf = Ok [105; 110; 102] /\
  float_read exact 36 [[105; 110; 102]] = Ok (3%nat, Some (inject_Z 24171)).
Proof. repeat split; vm_compute; reflexivity. Qed.
Print Assumptions C103_special_refuted.

(** -12.50, then "e3", in three pieces; with rounding; the rounding has an effect. *)
Example C103_case :
  numeral 10 [45; 49; 50; 46; 53; 48; 101; 51] 6 true [1; 2] [5; 0] /\
  (exists v, float_read exact 0 [[45; 49]; [50; 46; 53]; [48; 101; 51]] = Ok (6%nat, Some v) /\ (v == - (25 # 2))%Q) /\
  (exists v, float_read exact 0 [[45; 49; 50; 46; 53; 48; 101; 51]] = Ok (6%nat, Some v) /\ (v == - (25 # 2))%Q) /\
  (exists v, float_read shave 0 [[45; 49; 50; 46; 53; 48; 101; 51]] = Ok (6%nat, Some v) /\ ~ (v == - (25 # 2))%Q) /\
  10 ^ Z.of_nat 19 < 2 ^ 64.
Proof.
  split; [|split; [|split; [|split; [|reflexivity]]]].
  - exists [45], [49; 50; 46; 53; 48; 101; 51]. repeat split; auto. left. exists [53; 48; 101; 51]. repeat split.
  - eexists. split; [vm_compute; reflexivity | reflexivity].
  - eexists. split; [vm_compute; reflexivity | reflexivity].
  - eexists. split; [vm_compute; reflexivity | intros H; vm_compute in H; discriminate H].
Qed.
(** Forty digits are read in three blocks. *)
Example C103_case_long : exists v, float_read exact 10 [repeat 49 40 ++ [46; 50; 53]] = Ok (43%nat, Some v) /\
  (v * 36 == inject_Z (4 * (10 ^ 40 - 1) + 9))%Q.
Proof. eexists. split; [vm_compute; reflexivity | vm_compute; reflexivity]. Qed.
(** No digits: ".5" is not a number, "-" and a letter consume the sign. *)
Example C103_case_none : float_read exact 10 [[46; 53]] = Ok (0%nat, None) /\ float_read exact 10 [[45]; [97]] = Ok (1%nat, None) /\
  numeral 10 [46; 53] 2 false [] [5] /\ numeral 10 [45; 97] 1 true [] [].
Proof.
  repeat split; try reflexivity.
  - exists [], [46; 53]. repeat split; auto. { right. right. repeat split; auto; discriminate. } left. exists [53]. repeat split.
  - exists [45], [97]. repeat split; auto. right. repeat split; discriminate.
Qed.
(** 8/5 is 1.3 in base 5; with two digits and a minus, read back from two pieces. *)
Example C103_case_round_trip :
  real_encode exact (settings 5 false) false 2 true (RFin (8 # 5)) = Ok [45; 49; 46; 51; 48] /\
  exists v, float_read exact 5 [[45; 49]; [46; 51; 48; 32]] = Ok (5%nat, Some v) /\ (v == - (8 # 5))%Q.
Proof. split; [vm_compute; reflexivity|]. eexists. split; [vm_compute; reflexivity | reflexivity]. Qed.
(** The same number with every operation rounded down by a part in 2^20. *)
Example C103_case_rounded :
  real_encode shave (settings 5 false) false 2 true (RFin (8 # 5)) = Ok [45; 49; 46; 51; 48] /\
  exists v, float_read shave 5 [[45; 49]; [46; 51; 48; 32]] = Ok (5%nat, Some v) /\ ~ (v == - (8 # 5))%Q /\
    (Qabs (v + (8 # 5)) <= 1 # 100000)%Q.
Proof. split; [vm_compute; reflexivity|]. eexists. split; [vm_compute; reflexivity|]. split; [intros H; vm_compute in H; discriminate H | vm_compute; discriminate]. Qed.

(** * C104 *)
(** Characters of the words. *)
Definition word (x : bool) : list Z := if x then [116; 114; 117; 101] else [102; 97; 108; 115; 101].
(** With names: a text starting with one of the words is read; otherwise nothing is
    stored and the common beginning with a word is consumed. *)
Theorem C104_names : forall chunks, Forall (fun s => s <> []) chunks ->
  (forall x rest, concat chunks = word x ++ rest -> bool_read true chunks = Ok (length (word x), Some x)) /\
  ((forall x rest, concat chunks <> word x ++ rest) ->
   exists n x, bool_read true chunks = Ok (n, None) /\ firstn n (concat chunks) = firstn n (word x) /\
     nth_error (concat chunks) n <> nth_error (word x) n /\ (n < length (word x))%nat).
Proof.
  intros chunks N. pose proof (bool_read_alpha chunks N) as R. cbv zeta in R. split.
  - intros x rest E. rewrite R, E.
    destruct x; cbn; reflexivity.
  - intros H. set (x := match concat chunks with c :: _ => c =? 116 | [] => false end) in *.
    exists (mismatch (word x) (concat chunks)), x. destruct (mismatch_spec (word x) (concat chunks)) as (A & B & C).
    change (if x then true_s else false_s) with (word x) in R. rewrite R.
    destruct (Nat.eqb_spec (mismatch (word x) (concat chunks)) (length (word x))) as [E | E].
    + exfalso. rewrite E in A. apply (H x (skipn (length (word x)) (concat chunks))). rewrite <- (firstn_skipn (length (word x)) (concat chunks)) at 1.
      rewrite A. now rewrite firstn_all.
    + split; [reflexivity|]. split; [exact A|]. split; [tauto | lia].
Qed.
Print Assumptions C104_names.

(** Without names: one character 0 or 1. *)
Theorem C104_digits : forall chunks, Forall (fun s => s <> []) chunks ->
  (forall x rest, concat chunks = (if x : bool then 49 else 48) :: rest -> bool_read false chunks = Ok (1%nat, Some x)) /\
  ((forall rest, concat chunks <> 49 :: rest /\ concat chunks <> 48 :: rest) -> bool_read false chunks = Ok (0%nat, None)).
Proof.
  intros chunks N. rewrite (bool_read_digit chunks N). split.
  - intros x rest ->. now destruct x.
  - intros H. destruct (concat chunks) as [|c r]; [reflexivity|]. destruct (H r) as (A & B).
    destruct (Z.eqb_spec c 49) as [-> | _]; [easy|]. destruct (Z.eqb_spec c 48) as [-> | _]; [easy|]. reflexivity.
Qed.
Print Assumptions C104_digits.

(** What is written is read back with the same flag, whatever follows. *)
Theorem C104_round_trip : forall alpha x chunks rest, Forall (fun s => s <> []) chunks ->
  concat chunks = bool_encode alpha x ++ rest -> bool_read alpha chunks = Ok (length (bool_encode alpha x), Some x).
Proof.
  intros [|] x chunks rest N E.
  - apply (proj1 (C104_names chunks N)) with rest. exact E.
  - rewrite (proj1 (C104_digits chunks N) x rest); [now destruct x|]. rewrite E. now destruct x.
Qed.
Print Assumptions C104_round_trip.

(** A failed read of a name consumes the matching beginning: after "tr1" with names,
    a read without names finds 1. *)
Example C104_case :
  bool_read true [[116]; [114; 117]; [101; 33]] = Ok (4%nat, Some true) /\
  bool_read true [[102; 97]; [108; 115; 101]] = Ok (5%nat, Some false) /\
  bool_read true [[116; 114]; [49]] = Ok (2%nat, None) /\ bool_read false [[49]] = Ok (1%nat, Some true) /\
  bool_read true [[49]] = Ok (0%nat, None) /\ bool_read false [[116]] = Ok (0%nat, None).
Proof. repeat split; reflexivity. Qed.

(** An empty buffer ends the input: what the device gives after it is not read. *)
Theorem C103_end : forall rnd base chunks rest, float_read rnd base (chunks ++ [] :: rest) = float_read rnd base chunks.
Proof.
  intros rnd base chunks rest. unfold float_read. f_equal. generalize fparser_init. induction chunks as [|s cs IH]; intros p; [reflexivity|].
  cbn [app fexec]. destruct s as [|c s]; [reflexivity|]. destruct (fparse rnd (fbase base) (max_length (fbase base)) p (c :: s)) as [[n p']| | | |]; [|reflexivity..].
  cbn [bind]. now rewrite IH.
Qed.
Print Assumptions C103_end.
Example C103_case_end : float_read exact 10 [[49; 46]; [53]; []; [55]] = float_read exact 10 [[49; 46; 53]] /\
  float_read exact 10 [[]; [55]] = Ok (0%nat, None).
Proof. split; vm_compute; reflexivity. Qed.
Theorem C104_end : forall alpha chunks rest, bool_read alpha (chunks ++ [] :: rest) = bool_read alpha chunks.
Proof.
  intros alpha chunks rest. unfold bool_read. f_equal. generalize qparser_init. induction chunks as [|s cs IH]; intros p; [reflexivity|].
  cbn [app qexec]. destruct s as [|c s]; [reflexivity|]. destruct (qparse alpha p (c :: s)) as [[n p']| | | |]; [|reflexivity..].
  cbn [bind]. now rewrite IH.
Qed.
Print Assumptions C104_end.
Example C104_case_end : bool_read true [[116; 114]; []; [117; 101]] = Ok (2%nat, None) /\ bool_read false [[]; [49]] = Ok (0%nat, None).
Proof. split; reflexivity. Qed.
