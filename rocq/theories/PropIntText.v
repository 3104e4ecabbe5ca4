(** Properties C16 - C21: integers as text. *)
From Coq Require Import ZArith List Bool Lia.
From Verif Require Import Outcome StringModel IntTypes IntTextModel IntTextProofs.
Import ListNotations.
Local Open Scope Z_scope.

(** * C16 *)
(** Sign, prefix and canonical digits: [canonical b x ds] says that the digits
    evaluate to [x], are below the base and have no leading zero. *)
Theorem C16_canonical_numeral : forall w sg f x,
  8 <= w <= 64 -> f_base f = 0 \/ 2 <= f_base f <= 36 -> in_ity (int_type w sg) x ->
  exists ds, int_encode w sg f x
             = Ok (sign_prefix sg f x ++ base_prefix f (eff_base f) (Z.abs x)
                   ++ map (numeral_char (f_uppercase f)) ds)
             /\ canonical (eff_base f) (Z.abs x) ds.
Proof.
  intros w sg f x W B X. destruct (int_encode_spec w sg f x W B X) as (ds & E & C & _). eauto.
Qed.
Print Assumptions C16_canonical_numeral.

(** Canonical digits are unique, so the text is determined. *)
Theorem C16_canonical_unique : forall b x ds es, 2 <= b -> canonical b x ds -> canonical b x es -> ds = es.
Proof.
  intros b x ds es B.
  assert (Rev : forall ds, Forall (fun d => 0 <= d < b) ds -> forall es, Forall (fun d => 0 <= d < b) es ->
            length ds = length es -> eval b ds = eval b es -> ds = es).
  { intros l. induction l as [|d l IH] using rev_ind; intros Fl m Fm L E.
    - destruct m; [reflexivity|discriminate].
    - destruct m as [|e m] using rev_ind; [rewrite app_length in L; cbn in L; lia|]. clear IHm.
      rewrite !app_length in L. cbn in L. unfold eval in E. rewrite !eval_from_app in E. cbn [eval_from] in E.
      apply Forall_app in Fl. apply Forall_app in Fm. destruct Fl as (Fl & Hd). destruct Fm as (Fm & He).
      inversion_clear Hd. inversion_clear He.
      assert (Q : eval_from b 0 l = eval_from b 0 m).
      { destruct (Z.lt_trichotomy (eval_from b 0 l) (eval_from b 0 m)) as [|[|]]; [nia|assumption|nia]. }
      assert (d = e) by (rewrite Q in E; lia). subst e.
      f_equal. apply IH; auto. lia. }
  assert (Up : forall l a, Forall (fun d => 0 <= d < b) l -> 0 <= a ->
            a * b ^ Z.of_nat (length l) <= eval_from b a l < (a + 1) * b ^ Z.of_nat (length l)).
  { induction l as [|d l IH]; intros a F A.
    - cbn. lia.
    - inversion_clear F. cbn [eval_from length]. specialize (IH (a * b + d) ltac:(assumption) ltac:(nia)).
      rewrite Nat2Z.inj_succ, Z.pow_succ_r by lia.
      assert (0 < b ^ Z.of_nat (length l)) by (apply Z.pow_pos_nonneg; lia). nia. }
  assert (Len : forall l m, canonical b x l -> canonical b x m -> (length l <= length m)%nat).
  { intros l m (El & Fl & Cl) (Em & Fm & Cm).
    destruct Cl as [-> | (d & tl & -> & Nd)].
    - destruct Cm as [-> | (e & tm & -> & _)]; cbn; lia.
    - destruct (Nat.le_gt_cases (length (d :: tl)) (length m)) as [|G]; [assumption|exfalso].
      inversion_clear Fl.
      pose proof (Up tl d ltac:(assumption) ltac:(lia)) as U1.
      pose proof (Up m 0 Fm ltac:(lia)) as U2.
      unfold eval in El, Em. cbn [eval_from] in El. rewrite Z.mul_0_l, Z.add_0_l in El.
      assert (b ^ Z.of_nat (length m) <= b ^ Z.of_nat (length tl)).
      { apply Z.pow_le_mono_r; [lia|]. cbn in G. lia. }
      assert (0 < b ^ Z.of_nat (length tl)) by (apply Z.pow_pos_nonneg; lia). nia. }
  intros Cd Ce. apply Rev.
  - apply Cd.
  - apply Ce.
  - pose proof (Len ds es Cd Ce). pose proof (Len es ds Ce Cd). lia.
  - rewrite (proj1 Cd), (proj1 Ce). reflexivity.
Qed.
Print Assumptions C16_canonical_unique.

Definition hex : fmt := {| f_base := 16; f_uppercase := true; f_showbase := true; f_showpos := true |}.
Definition dec : fmt := {| f_base := 0; f_uppercase := false; f_showbase := false; f_showpos := false |}.
(** -0X80000000 *)
Example C16_case : in_ity (int_type 32 true) (-2147483648)
  /\ int_encode 32 true hex (-2147483648) = Ok [45; 48; 88; 56; 48; 48; 48; 48; 48; 48; 48]
  /\ canonical 16 2147483648 [8; 0; 0; 0; 0; 0; 0; 0].
Proof.
  split; [unfold in_ity; cbn; lia|]. split; [vm_compute; reflexivity|].
  unfold canonical. split; [reflexivity|]. split; [repeat constructor; lia|]. right. eexists _, _. split; [reflexivity|lia].
Qed.

(** * C17 *)
(** The buffer has w + 1 bytes; writing before its start would be [UB]. *)
Theorem C17_no_overrun : forall w sg f x,
  8 <= w <= 64 -> f_base f = 0 \/ 2 <= f_base f <= 36 -> in_ity (int_type w sg) x ->
  int_buffer w = w + 1
  /\ exists t, int_encode w sg f x = Ok t /\ Z.of_nat (length t) <= w + 1.
Proof.
  intros w sg f x W B X. split; [apply int_buffer_size; lia|].
  destruct (int_encode_spec w sg f x W B X) as (ds & E & _ & L).
  eexists. split; [exact E|]. rewrite !app_length, map_length.
  assert (length (sign_prefix sg f x) <= 1)%nat.
  { unfold sign_prefix. destruct (x <? 0); [cbn; lia|]. destruct (_ && _); cbn; lia. }
  lia.
Qed.
Print Assumptions C17_no_overrun.
(** The bound is reached: the most negative value in base 2. *)
Example C17_case : exists t,
  int_encode 64 true {| f_base := 2; f_uppercase := false; f_showbase := true; f_showpos := true |} (- 2 ^ 63) = Ok t
  /\ length t = 65%nat.
Proof. eexists. split; vm_compute; reflexivity. Qed.

(** * C18 *)
Theorem C18_round_trip : forall w sg f x rest t,
  8 <= w <= 64 -> f_base f = 0 \/ 2 <= f_base f <= 36 -> in_ity (int_type w sg) x ->
  Forall is_char rest -> stops (eff_base f) rest -> x <> 0 \/ rest = [] ->
  int_encode w sg f x = Ok t ->
  int_read w sg (f_base f) [t ++ rest] = Ok (length t, Some x).
Proof. exact round_trip. Qed.
Print Assumptions C18_round_trip.
(** With "-0X80000000" followed by a space, and 0 at the end of input. *)
Example C18_case : Forall is_char [32] /\ stops (eff_base hex) [32]
  /\ int_read 32 true 16 [[45; 48; 88; 56; 48; 48; 48; 48; 48; 48; 48; 32]] = Ok (11%nat, Some (-2147483648)).
Proof. split; [constructor; [unfold is_char; lia|constructor]|]. split; [reflexivity|vm_compute; reflexivity]. Qed.
Example C18_zero : int_encode 32 true dec 0 = Ok [48] /\ int_read 32 true 0 [[48]] = Ok (1%nat, Some 0).
Proof. split; vm_compute; reflexivity. Qed.

(** * C19 *)
(** Text whose numeral does not start with 0: the answer is the number denoted
    by the longest run of digits if the type can hold it; otherwise failure. *)
Theorem C19_parse_exact : forall w sg base t,
  8 <= w -> Forall is_char t -> base = 0 \/ 2 <= base <= 36 ->
  (forall rest, skipn (snd (sign_of sg t)) t <> 48 :: rest) ->
  let (neg, n) := sign_of sg t in
  let b := if base =? 0 then 10 else base in
  let ds := digit_run b (skipn n t) in
  int_read w sg base [t]
  = Ok ((n + length ds)%nat,
        match ds with
        | [] => None
        | _ => fit (int_type w sg) (apply_sign neg (eval b ds))
        end).
Proof.
  intros w sg base t W F B N. destruct (sign_of sg t) as (neg & n) eqn:S. cbn [snd] in N.
  cbv zeta. rewrite int_read_whole by assumption. unfold text_read. rewrite S.
  destruct (skipn n t) as [|c u] eqn:K; [reflexivity|].
  unfold unsigned_read. destruct (Z.eqb_spec c 48) as [->|_]; [now destruct (N u)|]. reflexivity.
Qed.
Print Assumptions C19_parse_exact.

(** A numeral starting with 0 that goes on with digits, or with the mark of a
    base and digits, is read exactly as well. *)
Theorem C19_leading_zero : forall w sg base t m rest,
  8 <= w -> Forall is_char t -> base = 0 \/ 2 <= base <= 36 ->
  skipn (snd (sign_of sg t)) t = 48 :: m :: rest ->
  let (neg, n) := sign_of sg t in
  match base_mark base m with
  | Some b => let ds := digit_run b rest in
              int_read w sg base [t]
              = Ok ((n + 2 + length ds)%nat,
                    match ds with [] => None | _ => fit (int_type w sg) (apply_sign neg (eval b ds)) end)
  | None => let b := if base =? 0 then 8 else base in
            let ds := digit_run b (m :: rest) in
            ds <> [] ->
            int_read w sg base [t]
            = Ok ((n + 1 + length ds)%nat, fit (int_type w sg) (apply_sign neg (eval b ds)))
  end.
Proof.
  intros w sg base t m rest W F B K. destruct (sign_of sg t) as (neg & n) eqn:S. cbn [snd] in K.
  pose proof (int_read_whole w sg base t W F B) as R. unfold text_read in R. rewrite S, K in R.
  unfold unsigned_read in R. rewrite Z.eqb_refl in R.
  destruct (base_mark base m) as [b|]; cbv zeta in *.
  - rewrite R. cbn [fst snd]. do 2 f_equal. lia.
  - intros N. rewrite R. cbn [fst snd].
    destruct (digit_run (if base =? 0 then 8 else base) (m :: rest)) as [|d ds]; [easy|].
    do 2 f_equal. lia.
Qed.
Print Assumptions C19_leading_zero.

(** Whatever the text, a returned value is in the range of the type. *)
Theorem C19_in_range : forall w sg base t n v,
  8 <= w -> Forall is_char t -> base = 0 \/ 2 <= base <= 36 ->
  int_read w sg base [t] = Ok (n, Some v) -> in_ity (int_type w sg) v.
Proof.
  intros w sg base t n v W F B H. rewrite int_read_whole in H by assumption.
  unfold text_read in H. destruct (sign_of sg t) as (neg & k) eqn:S.
  assert (Fit : forall z, fit (int_type w sg) z = Some v -> in_ity (int_type w sg) v).
  { intros z. unfold fit. destruct (in_ityb (int_type w sg) z) eqn:I; [|discriminate].
    intros E. injection E as <-. now apply in_ityb_spec. }
  injection H as _ H.
  assert (Ft : Forall is_char (skipn k t)).
  { apply Forall_forall. intros x Hx. rewrite Forall_forall in F. apply F.
    rewrite <- (firstn_skipn k t). apply in_or_app. now right. }
  assert (Ng : neg = true -> sg = true).
  { unfold sign_of in S. destruct t as [|c0 t]; [congruence|]. destruct (c0 =? 45), sg; cbn in S; try congruence; destruct (c0 =? 43); congruence. }
  destruct (skipn k t) as [|c u]; [discriminate H|]. unfold unsigned_read in H.
  destruct (c =? 48).
  - destruct u as [|m u]; [now apply Fit in H|].
    destruct (base_mark base m) as [b|]; cbn [snd] in H.
    + destruct (digit_run b u); [discriminate|]. now apply Fit in H.
    + inversion_clear Ft as [|? ? _ Fu]. inversion_clear Fu as [|? ? Hm _].
      assert (Bb : 2 <= (if base =? 0 then 8 else base) <= 36). { destruct (Z.eqb_spec base 0); lia. }
      pose proof (to_digit_in w _ m W Hm Bb) as T.
      cbn [digit_run] in H.
      destruct (digit_in (if base =? 0 then 8 else base) m) as [d|].
      * now apply Fit in H.
      * injection H as <-. unfold misread, sign_value. destruct sg.
        -- destruct neg.
           ++ pose proof (wrap_in (int_type w true) (to_digit w ((if base =? 0 then 8 else base) <=? 10) m - 1) ltac:(cbn; lia)) as I.
              unfold int_type in *. unfold in_ity, ilow, ihigh in *. cbn [bits sgn] in *. lia.
           ++ apply wrap_in. cbn. lia.
        -- unfold in_ity, ilow, ihigh, int_type. cbn [bits sgn]. lia.
  - cbn [snd] in H. destruct (digit_run _ (c :: u)); [discriminate|]. now apply Fit in H.
Qed.
Print Assumptions C19_in_range.

(** "2147483648" does not fit in int; "-2147483648" does; "+12a" in base 16. *)
Example C19_case : int_read 32 true 10 [[50; 49; 52; 55; 52; 56; 51; 54; 52; 56]] = Ok (10%nat, None)
  /\ int_read 32 true 10 [[45; 50; 49; 52; 55; 52; 56; 51; 54; 52; 56]] = Ok (11%nat, Some (-2147483648))
  /\ int_read 32 true 16 [[43; 49; 50; 97; 32]] = Ok (4%nat, Some 298)
  /\ int_read 8 false 0 [[48; 98; 49; 49; 50]] = Ok (4%nat, Some 3).
Proof. repeat split; vm_compute; reflexivity. Qed.

(** * C20 *)
(** Zero followed by a character [c] that is neither a digit of the base nor
    the mark of a base: one character is consumed, the read succeeds and the
    value is never 0.  In bases up to 10 it is [c - '0'] reduced to the type. *)
Theorem C20_zero_misread_refuted : forall w sg base c rest,
  8 <= w -> is_char c -> Forall is_char rest -> base = 0 \/ 2 <= base <= 36 ->
  let b := if base =? 0 then 8 else base in
  base_mark base c = None -> digit_in b c = None ->
  exists v, int_read w sg base [48 :: c :: rest] = Ok (1%nat, Some v)
            /\ v <> 0
            /\ v = wrap (int_type w sg)
                     (if b <=? 10 then c - 48
                      else match digit_of c with Some d => d | None => -1 end).
Proof.
  intros w sg base c rest W C F B b M D.
  assert (Bb : 2 <= b <= 36). { unfold b. destruct (Z.eqb_spec base 0); lia. }
  assert (R : int_read w sg base [48 :: c :: rest] = Ok (1%nat, Some (misread w sg false b c))).
  { rewrite int_read_whole by first [assumption | constructor; [unfold is_char; lia|now constructor]].
    unfold text_read. replace (sign_of sg (48 :: c :: rest)) with (false, 0%nat) by reflexivity.
    cbn [skipn]. unfold unsigned_read. rewrite Z.eqb_refl, M. cbv zeta. fold b. cbn [digit_run].
    rewrite D. reflexivity. }
  pose proof (to_digit_in w b c W C Bb) as T. rewrite D in T.
  pose proof (pow2_ge w W) as P.
  assert (V : misread w sg false b c = wrap (int_type w sg) (to_digit w (b <=? 10) c)).
  { unfold misread, sign_value. destruct sg; [reflexivity|]. symmetry. apply wrap_id; [cbn; lia|].
    unfold in_ity, ilow, ihigh, int_type. cbn [bits sgn]. lia. }
  assert (Nz : misread w sg false b c <> 0).
  { rewrite V. intros E. pose proof (wrap_mod (int_type w sg) (to_digit w (b <=? 10) c) ltac:(cbn; lia)) as Wm.
    rewrite E in Wm. cbn [bits int_type] in Wm. rewrite Z.mod_0_l, (Z.mod_small (to_digit w (b <=? 10) c)) in Wm by lia. lia. }
  exists (misread w sg false b c). split; [exact R|]. split; [exact Nz|].
  rewrite V. apply wrap_congr; [cbn; lia|]. cbn [bits int_type]. unfold to_digit.
  destruct (b <=? 10); [apply Z.mod_mod; lia|].
  assert (Dd : digit_of c = if is_digit c then Some (c - 48) else if is_upper c then Some (c - 55)
                            else if is_lower c then Some (c - 87) else None).
  { unfold digit_of, is_digit, is_upper, is_lower. rewrite !mod256_class by (auto; lia).
    replace (c <? 48 + 10) with (c <=? 57) by (destruct (Z.leb_spec c 57), (Z.ltb_spec c (48 + 10)); lia || auto).
    replace (c <? 65 + 26) with (c <=? 90) by (destruct (Z.leb_spec c 90), (Z.ltb_spec c (65 + 26)); lia || auto).
    replace (c <? 97 + 26) with (c <=? 122) by (destruct (Z.leb_spec c 122), (Z.ltb_spec c (97 + 26)); lia || auto).
    reflexivity. }
  rewrite Dd. destruct (is_digit c); [apply Z.mod_mod; lia|].
  destruct (is_upper c); [rewrite Z.mod_mod by lia; f_equal; lia|].
  destruct (is_lower c); [rewrite Z.mod_mod by lia; f_equal; lia|].
  rewrite Z.mod_small by lia. apply (Z.mod_unique_pos _ _ (-1)); lia.
Qed.
Print Assumptions C20_zero_misread_refuted.
(** "0 " gives -16, "0\n" -38, "0,1" -4; "0g" in base 16 gives 16. *)
Example C20_case : base_mark 10 32 = None /\ digit_in 10 32 = None
  /\ int_read 32 true 10 [[48; 32]] = Ok (1%nat, Some (-16))
  /\ int_read 32 true 10 [[48; 10]] = Ok (1%nat, Some (-38))
  /\ int_read 32 true 10 [[48; 44; 49]] = Ok (1%nat, Some (-4))
  /\ int_read 32 true 16 [[48; 103]] = Ok (1%nat, Some 16)
  /\ int_read 64 false 10 [[48; 32]] = Ok (1%nat, Some (2 ^ 64 - 16)).
Proof. repeat split; vm_compute; reflexivity. Qed.

(** * C21 *)
Theorem C21_chunks : forall w sg base chunks,
  Forall (fun s => s <> []) chunks ->
  int_read w sg base chunks = int_read w sg base [concat chunks].
Proof.
  intros w sg base chunks F. unfold int_read. rewrite (exec_concat w sg (iparser_init base) chunks F). reflexivity.
Qed.
Print Assumptions C21_chunks.
Example C21_case : Forall (fun s : list Z => s <> []) [[45]; [48]; [120]; [49; 102]; [32; 55]]
  /\ int_read 32 true 0 [[45]; [48]; [120]; [49; 102]; [32; 55]] = Ok (5%nat, Some (-31))
  /\ concat [[45]; [48]; [120]; [49; 102]; [32; 55]] = [45; 48; 120; 49; 102; 32; 55].
Proof. split; [repeat constructor; easy|]. split; vm_compute; reflexivity. Qed.
(** An empty buffer ends the input: what the device gives after it is not read. *)
Theorem C21_end : forall w sg base chunks rest, int_read w sg base (chunks ++ [] :: rest) = int_read w sg base chunks.
Proof.
  intros w sg base chunks rest. unfold int_read. f_equal. generalize (iparser_init base). induction chunks as [|s cs IH]; intros p; [reflexivity|].
  cbn [app exec]. destruct s as [|c s]; [reflexivity|]. destruct (int_parse w sg p (c :: s)) as [[n p']| | | |]; [|reflexivity..].
  cbn [bind]. now rewrite IH.
Qed.
Print Assumptions C21_end.
Example C21_case_end : int_read 32 true 10 [[52]; [50]; []; [55]] = Ok (2%nat, Some 42) /\ int_read 32 true 10 [[]; [55]] = Ok (0%nat, None).
Proof. split; vm_compute; reflexivity. Qed.
