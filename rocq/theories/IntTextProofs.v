(** Specification of numerals and lemmas about IntTextModel. *)
From Coq Require Import ZArith List Bool Lia.
From Verif Require Import Outcome StringModel IntTypes IntTextModel.
Import ListNotations.
Local Open Scope Z_scope.

(** ** Specification, independent of the model *)
(** Value of a character as a digit. *)
Definition digit_of (c : Z) : option Z :=
  if (48 <=? c) && (c <=? 57) then Some (c - 48)
  else if (65 <=? c) && (c <=? 90) then Some (c - 55)
  else if (97 <=? c) && (c <=? 122) then Some (c - 87)
  else None.
Definition digit_in (b c : Z) : option Z :=
  match digit_of c with Some d => if d <? b then Some d else None | None => None end.
(** Values of the longest prefix of digits. *)
Fixpoint digit_run (b : Z) (t : list Z) : list Z :=
  match t with
  | [] => []
  | c :: t => match digit_in b c with Some d => d :: digit_run b t | None => [] end
  end.
(** The number denoted by digits, most significant first, after [a]. *)
Fixpoint eval_from (b a : Z) (ds : list Z) : Z :=
  match ds with [] => a | d :: ds => eval_from b (a * b + d) ds end.
Definition eval (b : Z) (ds : list Z) : Z := eval_from b 0 ds.
Definition int_type (w : Z) (sg : bool) : ity := {| bits := w; sgn := sg |}.
(** Sign of a numeral: (is negative, number of characters). *)
Definition sign_of (sg : bool) (t : list Z) : bool * nat :=
  match t with
  | c :: _ => if (c =? 45) && sg then (true, 1%nat) else if c =? 43 then (false, 1%nat) else (false, 0%nat)
  | [] => (false, 0%nat)
  end.
Definition apply_sign (neg : bool) (z : Z) : Z := if neg then - z else z.
(** The number if the type can hold it. *)
Definition fit (t : ity) (z : Z) : option Z := if in_ityb t z then Some z else None.
(** Is [c] after a leading zero the mark of the base?  [base] 0: detect. *)
Definition base_mark (base c : Z) : option Z :=
  if ((c =? 120) || (c =? 88)) && ((base =? 0) || (base =? 16)) then Some 16
  else if ((c =? 98) || (c =? 66)) && ((base =? 0) || (base =? 2)) then Some 2
  else None.

(** ** Evaluation *)
Lemma eval_from_app b a ds es : eval_from b a (ds ++ es) = eval_from b (eval_from b a ds) es.
Proof. revert a; induction ds; simpl; auto. Qed.

Lemma eval_from_ge b a ds : 1 <= b -> 0 <= a -> Forall (fun d => 0 <= d) ds -> a <= eval_from b a ds.
Proof.
  intros B. revert a; induction ds as [|d ds IH]; intros a A F; cbn [eval_from]; [lia|].
  inversion_clear F. specialize (IH (a * b + d) ltac:(nia) ltac:(assumption)). nia.
Qed.

Lemma digit_in_bound b c d : digit_in b c = Some d -> 0 <= d < b.
Proof.
  unfold digit_in, digit_of. intros H.
  destruct ((48 <=? c) && (c <=? 57)) eqn:E1.
  { apply andb_prop in E1. rewrite !Z.leb_le in E1.
    destruct (c - 48 <? b) eqn:L; [|discriminate]. apply Z.ltb_lt in L. injection H as <-. lia. }
  destruct ((65 <=? c) && (c <=? 90)) eqn:E2.
  { apply andb_prop in E2. rewrite !Z.leb_le in E2.
    destruct (c - 55 <? b) eqn:L; [|discriminate]. apply Z.ltb_lt in L. injection H as <-. lia. }
  destruct ((97 <=? c) && (c <=? 122)) eqn:E3; [|discriminate].
  apply andb_prop in E3. rewrite !Z.leb_le in E3.
  destruct (c - 87 <? b) eqn:L; [|discriminate]. apply Z.ltb_lt in L. injection H as <-. lia.
Qed.

Lemma digit_run_nonneg b t : Forall (fun d => 0 <= d) (digit_run b t).
Proof.
  induction t as [|c t IH]; cbn [digit_run]; [constructor|].
  destruct (digit_in b c) eqn:D; constructor; auto. apply digit_in_bound in D. lia.
Qed.

(** ** Characters *)
Definition is_char (c : Z) : Prop := -128 <= c < 256.

Lemma mod256_class c lo n : is_char c -> 0 <= lo < 123 -> 0 <= n <= 26 -> lo + n <= 128 ->
  ((c - lo) mod 256 <? n) = (lo <=? c) && (c <? lo + n).
Proof.
  intros C L N M. unfold is_char in C.
  assert (E : (c - lo) mod 256 = if c - lo <? 0 then c - lo + 256 else c - lo).
  { destruct (c - lo <? 0) eqn:S.
    - apply Z.ltb_lt in S. symmetry. apply (Z.mod_unique_pos _ _ (-1)); lia.
    - apply Z.ltb_ge in S. rewrite Z.mod_small; lia. }
  rewrite E. destruct (c - lo <? 0) eqn:S.
  - apply Z.ltb_lt in S. destruct (Z.leb_spec lo c); [lia|]. apply Z.ltb_ge. lia.
  - apply Z.ltb_ge in S. destruct (Z.leb_spec lo c); [|lia]. cbn [andb].
    destruct (Z.ltb_spec (c - lo) n), (Z.ltb_spec c (lo + n)); lia || reflexivity.
Qed.

Lemma pow2_ge w : 8 <= w -> 256 <= 2 ^ w.
Proof. intros. change 256 with (2 ^ 8). apply Z.pow_le_mono_r; lia. Qed.

(** The test of the parser agrees with the specification of digits. *)
Lemma to_digit_in w b c : 8 <= w -> is_char c -> 2 <= b <= 36 ->
  match digit_in b c with
  | Some d => to_digit w (b <=? 10) c = d
  | None => b <= to_digit w (b <=? 10) c < 2 ^ w
  end.
Proof.
  intros W C B. pose proof (pow2_ge w W) as P. unfold to_digit.
  assert (D : digit_of c = if is_digit c then Some (c - 48) else if is_upper c then Some (c - 55)
                           else if is_lower c then Some (c - 87) else None).
  { unfold digit_of, is_digit, is_upper, is_lower. rewrite !mod256_class by (auto; lia).
    replace (c <? 48 + 10) with (c <=? 57) by (destruct (Z.leb_spec c 57), (Z.ltb_spec c (48 + 10)); lia || auto).
    replace (c <? 65 + 26) with (c <=? 90) by (destruct (Z.leb_spec c 90), (Z.ltb_spec c (65 + 26)); lia || auto).
    replace (c <? 97 + 26) with (c <=? 122) by (destruct (Z.leb_spec c 122), (Z.ltb_spec c (97 + 26)); lia || auto).
    reflexivity. }
  assert (Rd : is_digit c = true -> 48 <= c <= 57).
  { unfold is_digit. rewrite mod256_class by (auto; lia). rewrite andb_true_iff, Z.leb_le, Z.ltb_lt. lia. }
  assert (Nd : is_digit c = false -> c < 48 \/ 57 < c).
  { unfold is_digit. rewrite mod256_class by (auto; lia). rewrite andb_false_iff, Z.leb_gt, Z.ltb_ge. lia. }
  assert (Ru : is_upper c = true -> 65 <= c <= 90).
  { unfold is_upper. rewrite mod256_class by (auto; lia). rewrite andb_true_iff, Z.leb_le, Z.ltb_lt. lia. }
  assert (Rl : is_lower c = true -> 97 <= c <= 122).
  { unfold is_lower. rewrite mod256_class by (auto; lia). rewrite andb_true_iff, Z.leb_le, Z.ltb_lt. lia. }
  unfold digit_in. rewrite D. unfold is_char in C.
  destruct (Z.leb_spec b 10) as [S|S].
  - destruct (is_digit c) eqn:E1.
    { specialize (Rd eq_refl). rewrite Z.mod_small by lia.
      destruct (Z.ltb_spec (c - 48) b); lia. }
    specialize (Nd eq_refl).
    assert (G : b <= (c - 48) mod 2 ^ w < 2 ^ w).
    { split; [|apply Z.mod_pos_bound; lia].
      destruct (Z.lt_ge_cases c 48).
      - replace ((c - 48) mod 2 ^ w) with (c - 48 + 2 ^ w); [lia|].
        apply (Z.mod_unique_pos _ _ (-1)); lia.
      - rewrite Z.mod_small by lia. lia. }
    destruct (is_upper c) eqn:E2; [specialize (Ru eq_refl)|destruct (is_lower c) eqn:E3; [specialize (Rl eq_refl)|]].
    + destruct (Z.ltb_spec (c - 55) b); [lia|exact G].
    + destruct (Z.ltb_spec (c - 87) b); [lia|exact G].
    + exact G.
  - destruct (is_digit c) eqn:E1.
    { specialize (Rd eq_refl). rewrite Z.mod_small by lia. destruct (Z.ltb_spec (c - 48) b); lia. }
    destruct (is_upper c) eqn:E2.
    { specialize (Ru eq_refl). rewrite Z.mod_small by lia. destruct (Z.ltb_spec (c - 55) b); lia. }
    destruct (is_lower c) eqn:E3.
    { specialize (Rl eq_refl). rewrite Z.mod_small by lia. destruct (Z.ltb_spec (c - 87) b); lia. }
    lia.
Qed.

(** ** The digit loop *)
Definition set_x (p : uparser) (st : ustate) (x : Z) : uparser :=
  {| u_st := st; u_x := x; u_base := u_base p; u_max := u_max p |}.

Lemma over_iff m b x d : 0 < b -> 0 <= d < b -> 0 <= x ->
  (m / b <? x) || ((m / b =? x) && (m mod b <? d)) = (m <? x * b + d).
Proof.
  intros B D X. pose proof (Z.div_mod m b ltac:(lia)) as E. pose proof (Z.mod_pos_bound m b B) as M.
  destruct (Z.ltb_spec (m / b) x); cbn [orb].
  { symmetry. apply Z.ltb_lt. nia. }
  destruct (Z.eqb_spec (m / b) x); cbn [andb].
  - destruct (Z.ltb_spec (m mod b) d), (Z.ltb_spec m (x * b + d)); try reflexivity; nia.
  - symmetry. apply Z.ltb_ge. nia.
Qed.

Lemma uint_loop_over w p s : 8 <= w -> Forall is_char s -> 2 <= u_base p <= 36 ->
  0 < u_max p < 2 ^ w -> u_st p = UOverflow -> u_x p = u_max p ->
  uint_loop w (u_base p <=? 10) p s = (length (digit_run (u_base p) s), p).
Proof.
  intros W F B M S X. induction s as [|c s IH]; [reflexivity|].
  inversion_clear F. cbn [uint_loop digit_run].
  pose proof (to_digit_in w (u_base p) c W H B) as T.
  destruct (digit_in (u_base p) c) as [d|] eqn:D.
  - pose proof (digit_in_bound _ _ _ D). rewrite T.
    replace (d <? u_base p) with true by (symmetry; apply Z.ltb_lt; lia). cbn [negb].
    rewrite over_iff by lia. rewrite X.
    replace (u_max p <? u_max p * u_base p + d) with true by (symmetry; apply Z.ltb_lt; nia).
    assert (E : {| u_st := UOverflow; u_x := u_max p; u_base := u_base p; u_max := u_max p |} = p).
    { destruct p; cbn in *. congruence. }
    rewrite E, IH by assumption. reflexivity.
  - replace (to_digit w (u_base p <=? 10) c <? u_base p) with false by (symmetry; apply Z.ltb_ge; lia).
    reflexivity.
Qed.

Lemma uint_loop_spec w p s : 8 <= w -> Forall is_char s -> 2 <= u_base p <= 36 ->
  0 < u_max p < 2 ^ w -> u_st p = UOk -> 0 <= u_x p <= u_max p ->
  uint_loop w (u_base p <=? 10) p s
  = (length (digit_run (u_base p) s),
     let v := eval_from (u_base p) (u_x p) (digit_run (u_base p) s) in
     if v <=? u_max p then set_x p UOk v else set_x p UOverflow (u_max p)).
Proof.
  intros W F B M. revert p B M. induction s as [|c s IH]; intros p B M S X.
  - cbn [uint_loop digit_run length eval_from].
    replace (u_x p <=? u_max p) with true by (symmetry; apply Z.leb_le; lia).
    destruct p; cbn in *; subst; reflexivity.
  - inversion_clear F. cbn [uint_loop digit_run].
    pose proof (to_digit_in w (u_base p) c W H B) as T.
    destruct (digit_in (u_base p) c) as [d|] eqn:D.
    + pose proof (digit_in_bound _ _ _ D). rewrite T.
      replace (d <? u_base p) with true by (symmetry; apply Z.ltb_lt; lia). cbn [negb].
      rewrite over_iff by lia.
      destruct (Z.ltb_spec (u_max p) (u_x p * u_base p + d)) as [O|O].
      * change ({| u_st := UOverflow; u_x := u_max p; u_base := u_base p; u_max := u_max p |})
          with (set_x p UOverflow (u_max p)).
        change (u_base p <=? 10) with (u_base (set_x p UOverflow (u_max p)) <=? 10).
        rewrite uint_loop_over by (cbn; auto; lia).
        cbn [length eval_from u_base set_x].
        pose proof (eval_from_ge (u_base p) (u_x p * u_base p + d) (digit_run (u_base p) s)
                      ltac:(lia) ltac:(nia) (digit_run_nonneg _ _)).
        replace (eval_from (u_base p) (u_x p * u_base p + d) (digit_run (u_base p) s) <=? u_max p)
          with false by (symmetry; apply Z.leb_gt; lia).
        reflexivity.
      * rewrite Z.mod_small by nia.
        change ({| u_st := u_st p; u_x := u_x p * u_base p + d; u_base := u_base p; u_max := u_max p |})
          with (set_x p (u_st p) (u_x p * u_base p + d)).
        set (q := set_x p (u_st p) (u_x p * u_base p + d)).
        change (u_base p <=? 10) with (u_base q <=? 10).
        rewrite (IH H0 q) by (unfold q; cbn; auto; nia).
        unfold q. cbn [length eval_from u_base u_max u_x set_x].
        destruct (_ <=? u_max p); reflexivity.
    + replace (to_digit w (u_base p <=? 10) c <? u_base p) with false by (symmetry; apply Z.ltb_ge; lia).
      cbn [negb length eval_from].
      replace (u_x p <=? u_max p) with true by (symmetry; apply Z.leb_le; lia).
      destruct p; cbn in *; subst; reflexivity.
Qed.

(** First call of the inner parser. *)
Lemma uint_parse_spec w p c s : 8 <= w -> is_char c -> Forall is_char s -> 2 <= u_base p <= 36 ->
  36 <= u_max p < 2 ^ w -> u_st p = UEmpty ->
  uint_parse w p (c :: s)
  = Ok (length (digit_run (u_base p) (c :: s)),
        if (match digit_run (u_base p) (c :: s) with [] => true | _ => false end)
        then set_x p UEmpty (to_digit w (u_base p <=? 10) c)
        else let v := eval (u_base p) (digit_run (u_base p) (c :: s)) in
             if v <=? u_max p then set_x p UOk v else set_x p UOverflow (u_max p)).
Proof.
  intros W C F B M S. unfold uint_parse. rewrite S. cbn [digit_run].
  pose proof (to_digit_in w (u_base p) c W C B) as T.
  destruct (digit_in (u_base p) c) as [d|] eqn:D.
  - pose proof (digit_in_bound _ _ _ D). rewrite T.
    replace (d <? u_base p) with true by (symmetry; apply Z.ltb_lt; lia).
    change ({| u_st := UOk; u_x := d; u_base := u_base p; u_max := u_max p |}) with (set_x p UOk d).
    change (u_base p <=? 10) with (u_base (set_x p UOk d) <=? 10).
    rewrite uint_loop_spec by (cbn; auto; lia).
    cbn [u_base u_max u_x set_x length]. unfold eval. cbn [eval_from].
    replace (0 * u_base p + d) with d by lia.
    destruct (_ <=? u_max p); reflexivity.
  - replace (to_digit w (u_base p <=? 10) c <? u_base p) with false by (symmetry; apply Z.ltb_ge; lia).
    reflexivity.
Qed.

(** ** Sign *)
Lemma max_abs_range w sg neg : 8 <= w -> 127 <= max_abs w sg neg < 2 ^ w.
Proof.
  intros W. pose proof (pow2_ge w W) as P. unfold max_abs.
  assert (E : 2 ^ w = 2 * 2 ^ (w - 1)).
  { replace w with (1 + (w - 1)) at 1 by lia. rewrite Z.pow_add_r by lia. reflexivity. }
  destruct sg; [|lia].
  replace ((2 ^ w - 1) / 2) with (2 ^ (w - 1) - 1).
  - destruct neg; lia.
  - rewrite E. apply (Z.div_unique _ _ _ 1); lia.
Qed.

Lemma max_abs_signed w neg : 8 <= w -> max_abs w true neg = 2 ^ (w - 1) - 1 + (if neg then 1 else 0).
Proof.
  intros W. unfold max_abs. f_equal.
  assert (E : 2 ^ w = 2 * 2 ^ (w - 1)).
  { replace w with (1 + (w - 1)) at 1 by lia. rewrite Z.pow_add_r by lia. reflexivity. }
  rewrite E. symmetry. apply (Z.div_unique _ _ _ 1); lia.
Qed.

(** A magnitude within the limit is exactly a value of the type. *)
Lemma fit_abs w sg neg v : 8 <= w -> 0 <= v -> (neg = true -> sg = true) ->
  fit (int_type w sg) (apply_sign neg v)
  = if v <=? max_abs w sg neg then Some (sign_value w sg neg v) else None.
Proof.
  intros W V N.
  assert (E : 2 ^ w = 2 * 2 ^ (w - 1)).
  { replace w with (1 + (w - 1)) at 1 by lia. rewrite Z.pow_add_r by lia. reflexivity. }
  pose proof (pow2_ge w W) as P.
  unfold fit, in_ityb, ilow, ihigh, int_type, sign_value. cbn [bits sgn].
  destruct sg.
  - rewrite max_abs_signed by lia. unfold apply_sign. destruct neg.
    + destruct (Z.leb_spec v (2 ^ (w - 1) - 1 + 1)).
      * replace (- 2 ^ (w - 1) <=? - v) with true by (symmetry; apply Z.leb_le; lia).
        replace (- v <? 2 ^ (w - 1)) with true by (symmetry; apply Z.ltb_lt; lia). cbn [andb].
        rewrite wrap_id; [f_equal; lia|cbn; lia|].
        unfold in_ity, ilow, ihigh. cbn [bits sgn]. lia.
      * replace (- 2 ^ (w - 1) <=? - v) with false by (symmetry; apply Z.leb_gt; lia). reflexivity.
    + destruct (Z.leb_spec v (2 ^ (w - 1) - 1 + 0)).
      * replace (- 2 ^ (w - 1) <=? v) with true by (symmetry; apply Z.leb_le; lia).
        replace (v <? 2 ^ (w - 1)) with true by (symmetry; apply Z.ltb_lt; lia). cbn [andb].
        rewrite wrap_id; [f_equal; lia|cbn; lia|].
        unfold in_ity, ilow, ihigh. cbn [bits sgn]. lia.
      * replace (v <? 2 ^ (w - 1)) with false by (symmetry; apply Z.ltb_ge; lia).
        rewrite andb_false_r. reflexivity.
  - destruct neg; [specialize (N eq_refl); discriminate|]. cbn [apply_sign max_abs].
    destruct (Z.leb_spec v (2 ^ w - 1)).
    + replace (0 <=? v) with true by (symmetry; apply Z.leb_le; lia).
      replace (v <? 2 ^ w) with true by (symmetry; apply Z.ltb_lt; lia). reflexivity.
    + replace (v <? 2 ^ w) with false by (symmetry; apply Z.ltb_ge; lia).
      rewrite andb_false_r. reflexivity.
Qed.

(** ** One call with the whole text *)
(** What a fresh parser answers for text [t] without the sign.  [garbage] is the
    answer for a zero followed by a character that is neither a digit nor
    the mark of a base. *)
Definition unsigned_read (base : Z) (dec : Z -> option Z) (garbage : Z -> Z -> Z) (t : list Z) : nat * option Z :=
  match t with
  | [] => (0%nat, None)
  | c :: t' =>
      if c =? 48 then
        match t' with
        | [] => (1%nat, dec 0)
        | m :: t'' =>
            match base_mark base m with
            | Some b => let ds := digit_run b t'' in
                        ((2 + length ds)%nat, match ds with [] => None | _ => dec (eval b ds) end)
            | None => let b := if base =? 0 then 8 else base in
                      let ds := digit_run b t' in
                      ((1 + length ds)%nat, match ds with [] => Some (garbage b m) | _ => dec (eval b ds) end)
            end
        end
      else
        let b := if base =? 0 then 10 else base in
        let ds := digit_run b t in
        (length ds, match ds with [] => None | _ => dec (eval b ds) end)
  end.

(** The wrong answer: the value of the character used as a digit. *)
Definition misread (w : Z) (sg neg : bool) (b c : Z) : Z := sign_value w sg neg (to_digit w (b <=? 10) c).

Lemma base_mark_spec base c :
  parse_base base c = match base_mark base c with
                      | Some b => (true, b)
                      | None => (false, if base =? 0
                                        then 8
                                        else base)
                      end.
Proof.
  unfold parse_base, base_mark, set_base.
  destruct ((c =? 120) || (c =? 88)) eqn:X; cbn [andb].
  - destruct (Z.eqb_spec base 0); cbn [orb]; [reflexivity|].
    destruct (Z.eqb_spec base 16); [now subst|].
    replace ((c =? 98) || (c =? 66)) with false; [reflexivity|].
    apply orb_prop in X. rewrite !Z.eqb_eq in X. symmetry. apply orb_false_iff. rewrite !Z.eqb_neq. lia.
  - destruct ((c =? 98) || (c =? 66)) eqn:Y; cbn [andb]; [|reflexivity].
    destruct (Z.eqb_spec base 0); cbn [orb]; [reflexivity|].
    destruct (Z.eqb_spec base 2); [now subst|]. reflexivity.
Qed.

Definition value_of (w : Z) (sg : bool) (p : iparser) : option Z :=
  if int_ready p then Some (int_value w sg p) else None.

Definition fresh_inner (p : iparser) : Prop := u_st (i_inner p) = UEmpty /\ u_x (i_inner p) = 0.

(** From the point after the sign. *)
Lemma parse_sign_spec w sg base neg t i : 8 <= w -> Forall is_char t -> t <> [] ->
  base = 0 \/ 2 <= base <= 36 -> (neg = true -> sg = true) ->
  forall p, i_st p = ISign -> i_neg p = neg -> i_base p = {| b_st := BEmpty; b_base := base |} -> fresh_inner p ->
  omap (fun r => (fst r, value_of w sg (snd r))) (parse_sign w sg p i t)
  = Ok (let r := unsigned_read base (fun v => fit (int_type w sg) (apply_sign neg v)) (misread w sg neg) t in
        ((i + fst r)%nat, snd r)).
Proof.
  intros W F T B N p Ps Pn Pb (Pu & Px).
  pose proof (max_abs_range w sg neg W) as M.
  destruct t as [|c t]; [easy|]. inversion_clear F as [|? ? Hc Ft].
  unfold parse_sign. rewrite Pb. unfold base_parse. cbn [b_st b_base].
  unfold unsigned_read.
  destruct (Z.eqb_spec c 48) as [->|Nz].
  - cbn [bind]. destruct t as [|m t].
    + cbn. unfold value_of, int_ready, int_value. cbn. rewrite Pu, Px, Pn.
      do 3 f_equal. rewrite (fit_abs w sg neg 0 W ltac:(lia) N).
      replace (0 <=? max_abs w sg neg) with true by (symmetry; apply Z.leb_le; lia). reflexivity.
    + inversion_clear Ft as [|? ? Hm Ft'].
      cbn [base_zero]. rewrite base_mark_spec.
      destruct (base_mark base m) as [b|] eqn:E.
      * cbn [skipn b_st b_base].
        assert (Bb : 2 <= b <= 36).
        { unfold base_mark in E. destruct (_ && _); [injection E; lia|]. destruct (_ && _); [injection E; lia|discriminate]. }
        destruct t as [|d t].
        { cbn. unfold value_of, int_ready. cbn. rewrite Pu. f_equal; f_equal; lia. }
        inversion_clear Ft' as [|? ? Hd Ft].
        unfold parse_value. cbn [i_inner i_st i_neg i_base].
        rewrite uint_parse_spec by (cbn; rewrite ?Pn; auto; lia).
        cbn [bind omap u_base u_max u_st].
        destruct (digit_run b (d :: t)) as [|e ds] eqn:R.
        -- unfold omap. cbn. unfold value_of, int_ready. cbn. f_equal. f_equal; lia.
        -- rewrite <- R. unfold omap. cbn [bind fst snd]. rewrite R at 2. rewrite Pn.
           f_equal. f_equal; [lia|].
           rewrite fit_abs by first [assumption | apply eval_from_ge; [lia|lia|apply digit_run_nonneg]].
           cbv zeta; rewrite ?R; destruct (eval b _ <=? max_abs w sg neg); reflexivity.
      * cbn [skipn b_st b_base].
        set (b := if base =? 0 then 8 else base).
        assert (Bb : 2 <= b <= 36). { unfold b. destruct (Z.eqb_spec base 0); lia. }
        unfold parse_value. cbn [i_inner i_st i_neg i_base].
        rewrite uint_parse_spec by (cbn; rewrite ?Pn; auto; lia).
        cbn [bind omap u_base u_max u_st].
        destruct (digit_run b (m :: t)) as [|e ds] eqn:R.
        -- unfold omap. cbn. unfold value_of, int_ready, int_value, misread. cbn. rewrite Pn. f_equal. f_equal; lia.
        -- rewrite <- R. unfold omap. cbn [bind fst snd]. rewrite R at 2. rewrite Pn.
           f_equal. f_equal; [lia|].
           rewrite fit_abs by first [assumption | apply eval_from_ge; [lia|lia|apply digit_run_nonneg]].
           cbv zeta; rewrite ?R; destruct (eval b _ <=? max_abs w sg neg); reflexivity.
  - cbn [bind skipn b_st b_base]. unfold set_base.
    set (b := if base =? 0 then 10 else base).
    assert (Bb : 2 <= b <= 36). { unfold b. destruct (Z.eqb_spec base 0); lia. }
    unfold parse_value. cbn [i_inner i_st i_neg i_base].
    rewrite uint_parse_spec by (cbn; rewrite ?Pn; auto; lia).
    cbn [bind omap u_base u_max u_st].
    destruct (digit_run b (c :: t)) as [|e ds] eqn:R.
    + unfold omap. cbn. unfold value_of, int_ready. cbn. f_equal. f_equal; lia.
    + rewrite <- R. unfold omap. cbn [bind fst snd]. rewrite R at 2. rewrite Pn.
      f_equal. f_equal; [lia|].
      rewrite fit_abs by first [assumption | apply eval_from_ge; [lia|lia|apply digit_run_nonneg]].
      cbv zeta; rewrite ?R; destruct (eval b _ <=? max_abs w sg neg); reflexivity.
Qed.

Definition text_read (w : Z) (sg : bool) (base : Z) (t : list Z) : nat * option Z :=
  let (neg, n) := sign_of sg t in
  let r := unsigned_read base (fun v => fit (int_type w sg) (apply_sign neg v)) (misread w sg neg) (skipn n t) in
  ((n + fst r)%nat, snd r).

Lemma int_parse_spec w sg base t : 8 <= w -> Forall is_char t -> t <> [] -> base = 0 \/ 2 <= base <= 36 ->
  omap (fun r => (fst r, value_of w sg (snd r))) (int_parse w sg (iparser_init base) t) = Ok (text_read w sg base t).
Proof.
  intros W F T B. unfold int_parse, text_read. cbn [i_st iparser_init].
  destruct t as [|c t]; [easy|].
  assert (S : sign_parse sg (i_neg (iparser_init base)) c = (snd (sign_of sg (c :: t)), fst (sign_of sg (c :: t)))
              /\ (fst (sign_of sg (c :: t)) = true -> sg = true)).
  { unfold sign_parse, sign_of. cbn [i_neg iparser_init].
    destruct (Z.eqb_spec c 45), sg; cbn [andb fst snd]; try (split; [reflexivity|easy]);
    destruct (Z.eqb_spec c 43); cbn [fst snd]; easy. }
  destruct S as (S1 & S2). rewrite S1.
  destruct (sign_of sg (c :: t)) as (neg & n) eqn:E. cbn [fst snd] in *.
  destruct (skipn n (c :: t)) as [|r rest] eqn:R.
  - unfold omap. cbn [bind fst snd unsigned_read]. f_equal. f_equal. lia.
  - apply parse_sign_spec; auto; try easy.
    rewrite <- R. apply Forall_forall. intros x Hx. rewrite Forall_forall in F. apply F.
    rewrite <- (firstn_skipn n (c :: t)). apply in_or_app. now right.
Qed.

Lemma int_read_whole w sg base t : 8 <= w -> Forall is_char t -> base = 0 \/ 2 <= base <= 36 ->
  int_read w sg base [t] = Ok (text_read w sg base t).
Proof.
  intros W F B. destruct t as [|c t]; [reflexivity|].
  pose proof (int_parse_spec w sg base (c :: t) W F ltac:(easy) B) as H.
  unfold int_read. cbn [exec]. unfold omap in H.
  destruct (int_parse w sg (iparser_init base) (c :: t)) as [(n, p)| | | |]; cbn [bind] in H |- *; try discriminate H.
  rewrite <- (f_equal (fun o => o) H). unfold value_of. cbn [fst snd].
  destruct (Nat.eqb n (length (c :: t))); cbn [bind]; [rewrite Nat.add_0_r|]; reflexivity.
Qed.

(** ** Chunks *)
Lemma uint_loop_app w small p a b : uint_loop w small p (a ++ b)
  = let (n, p1) := uint_loop w small p a in
    if Nat.eqb n (length a) then let (m, p2) := uint_loop w small p1 b in ((n + m)%nat, p2) else (n, p1).
Proof.
  revert p. induction a as [|c a IH]; intros p.
  - cbn [app uint_loop length Nat.eqb]. destruct (uint_loop w small p b). reflexivity.
  - cbn [app uint_loop]. destruct (negb (to_digit w small c <? u_base p)) eqn:E; [reflexivity|].
    rewrite IH. destruct (uint_loop _ _ _ a) as (n & p1). cbn [length Nat.eqb].
    destruct (Nat.eqb n (length a)); [|reflexivity].
    destruct (uint_loop w small p1 b). reflexivity.
Qed.

Lemma uint_loop_keeps w small p s : u_base (snd (uint_loop w small p s)) = u_base p
  /\ (u_st p <> UEmpty -> u_st (snd (uint_loop w small p s)) <> UEmpty).
Proof.
  revert p. induction s as [|c s IH]; intros p; [cbn; auto|].
  cbn [uint_loop]. destruct (negb _); [cbn; auto|].
  match goal with |- context [uint_loop w small ?q s] => specialize (IH q); destruct (uint_loop w small q s) as (n & r) end.
  cbn [snd] in *. destruct IH as (I1 & I2). split.
  - rewrite I1. destruct (_ || _); reflexivity.
  - intros H. apply I2. destruct (_ || _); cbn; easy.
Qed.

Lemma uint_parse_app w p a b : a <> [] -> b <> [] ->
  uint_parse w p (a ++ b) = do (n, p1) <- uint_parse w p a;
                            if Nat.eqb n (length a) then do (m, p2) <- uint_parse w p1 b; Ok ((n + m)%nat, p2)
                            else Ok (n, p1).
Proof.
  intros A B. unfold uint_parse.
  assert (L : forall q, u_st q <> UEmpty -> u_base q = u_base p ->
    forall s, uint_loop w (u_base p <=? 10) q (s ++ b)
    = let (n, p1) := uint_loop w (u_base p <=? 10) q s in
      if Nat.eqb n (length s) then
        match u_st p1 with UEmpty => (0%nat, p1) | _ =>
          let (m, p2) := uint_loop w (u_base p1 <=? 10) p1 b in ((n + m)%nat, p2) end
      else (n, p1)).
  { intros q Q1 Q2 s. rewrite uint_loop_app.
    destruct (uint_loop_keeps w (u_base p <=? 10) q s) as (K1 & K2). specialize (K2 Q1).
    destruct (uint_loop w (u_base p <=? 10) q s) as (n & p1). cbn [snd] in *.
    destruct (Nat.eqb n (length s)); [|reflexivity].
    rewrite K1, Q2. destruct (u_st p1); easy. }
  destruct (u_st p) eqn:S.
  - destruct a as [|c a]; [easy|]. cbn [app].
    destruct (to_digit w (u_base p <=? 10) c <? u_base p) eqn:E.
    + set (q := {| u_st := UOk; u_x := to_digit w (u_base p <=? 10) c; u_base := u_base p; u_max := u_max p |}).
      rewrite (L q) by easy.
      destruct (uint_loop_keeps w (u_base p <=? 10) q a) as (K1 & K2). specialize (K2 ltac:(easy)).
      destruct (uint_loop w (u_base p <=? 10) q a) as (n & p1). cbn [bind snd length Nat.eqb] in *.
      destruct (Nat.eqb n (length a)); [|reflexivity].
      destruct (u_st p1); [easy| |]; cbn [bind]; destruct (uint_loop w _ p1 b); reflexivity.
    + reflexivity.
  - rewrite L by (rewrite ?S; easy).
    destruct (uint_loop_keeps w (u_base p <=? 10) p a) as (K1 & K2). rewrite S in K2. specialize (K2 ltac:(easy)).
    destruct (uint_loop w (u_base p <=? 10) p a) as (n & p1). cbn [bind snd] in *.
    destruct (Nat.eqb n (length a)); [|reflexivity].
    destruct (u_st p1); [easy| |]; cbn [bind]; destruct (uint_loop w _ p1 b); reflexivity.
  - rewrite L by (rewrite ?S; easy).
    destruct (uint_loop_keeps w (u_base p <=? 10) p a) as (K1 & K2). rewrite S in K2. specialize (K2 ltac:(easy)).
    destruct (uint_loop w (u_base p <=? 10) p a) as (n & p1). cbn [bind snd] in *.
    destruct (Nat.eqb n (length a)); [|reflexivity].
    destruct (u_st p1); [easy| |]; cbn [bind]; destruct (uint_loop w _ p1 b); reflexivity.
Qed.

Lemma parse_value_app w sg p i a b : a <> [] -> b <> [] -> i_st p = IValue ->
  parse_value w p i (a ++ b) = do (n, p1) <- parse_value w p i a;
                               if Nat.eqb n (i + length a) then do (m, p2) <- int_parse w sg p1 b; Ok ((n + m)%nat, p2)
                               else Ok (n, p1).
Proof.
  intros A B S. unfold parse_value at 1 2. rewrite uint_parse_app by assumption.
  destruct (uint_parse w (i_inner p) a) as [(n, u)| | | |]; cbn [bind]; try reflexivity.
  replace (Nat.eqb (i + n) (i + length a)) with (Nat.eqb n (length a))
    by (destruct (Nat.eqb_spec n (length a)), (Nat.eqb_spec (i + n) (i + length a)); lia || reflexivity).
  destruct (Nat.eqb n (length a)); cbn [bind]; [|reflexivity].
  unfold int_parse. cbn [i_st]. rewrite S. unfold parse_value. cbn [i_inner i_st i_neg i_base].
  destruct (uint_parse w u b) as [(m, v)| | | |]; cbn [bind]; try reflexivity.
  f_equal. f_equal. lia.
Qed.

Lemma parse_sign_app w sg p i a b : a <> [] -> b <> [] -> i_st p = ISign ->
  parse_sign w sg p i (a ++ b) = do (n, p1) <- parse_sign w sg p i a;
                                 if Nat.eqb n (i + length a) then do (m, p2) <- int_parse w sg p1 b; Ok ((n + m)%nat, p2)
                                 else Ok (n, p1).
Proof.
  intros A B S. destruct p as [st neg bp inner]. cbn [i_st] in S. subst st.
  (* after the base is settled in [a] *)
  assert (V : forall n bp', (n < length a)%nat -> b_st bp' <> BEmpty ->
    base_parse bp a = Ok (n, bp') -> base_parse bp (a ++ b) = Ok (n, bp') ->
    parse_sign w sg {| i_st := ISign; i_neg := neg; i_base := bp; i_inner := inner |} i (a ++ b)
    = do (n, p1) <- parse_sign w sg {| i_st := ISign; i_neg := neg; i_base := bp; i_inner := inner |} i a;
      if Nat.eqb n (i + length a) then do (m, p2) <- int_parse w sg p1 b; Ok ((n + m)%nat, p2) else Ok (n, p1)).
  { intros n bp' Hn Hb H1 H2. unfold parse_sign. cbn [i_base i_neg i_st i_inner]. rewrite H1, H2. cbn [bind].
    rewrite skipn_app. replace (n - length a)%nat with 0%nat by lia. cbn [skipn].
    assert (L : length (skipn n a) = (length a - n)%nat) by apply skipn_length.
    destruct (skipn n a) as [|c r] eqn:R; [cbn in L; lia|]. rewrite <- R in L |- *.
    assert (Q : skipn n a ++ b = c :: (r ++ b)) by now rewrite R.
    rewrite Q.
    destruct (b_st bp') eqn:Sb; [easy| |]; rewrite <- Q, R at 1; rewrite <- R;
      rewrite (parse_value_app w sg) by (easy || (rewrite R; easy));
      replace (i + n + length (skipn n a))%nat with (i + length a)%nat by lia; reflexivity. }
  (* the base parser used up [a] *)
  assert (U : forall bp' m bp'', b_st bp' <> BEmpty -> b_st bp'' <> BEmpty ->
    base_parse bp a = Ok (length a, bp') -> base_parse bp' b = Ok (m, bp'') ->
    base_parse bp (a ++ b) = Ok ((length a + m)%nat, bp'') ->
    parse_sign w sg {| i_st := ISign; i_neg := neg; i_base := bp; i_inner := inner |} i (a ++ b)
    = do (n, p1) <- parse_sign w sg {| i_st := ISign; i_neg := neg; i_base := bp; i_inner := inner |} i a;
      if Nat.eqb n (i + length a) then do (m, p2) <- int_parse w sg p1 b; Ok ((n + m)%nat, p2) else Ok (n, p1)).
  { intros bp' m bp'' H1 H2 E1 E2 E3.
    unfold parse_sign at 2. cbn [i_base i_neg i_st i_inner]. rewrite E1. cbn [bind].
    rewrite skipn_all. cbn [bind]. rewrite Nat.eqb_refl.
    unfold int_parse. cbn [i_st]. unfold parse_sign. cbn [i_base i_neg i_st i_inner]. rewrite E2, E3. cbn [bind].
    rewrite skipn_app. replace (length a + m - length a)%nat with m by lia.
    rewrite (skipn_all2 a) by lia. cbn [app].
    destruct (skipn m b) as [|c r] eqn:R; [cbn [bind]; f_equal; f_equal; lia|].
    destruct (b_st bp'') eqn:Sb; [easy| |];
      unfold parse_value; cbn [i_base i_neg i_st i_inner];
      destruct (uint_parse _ _ _) as [(k, u)| | | |]; cbn [bind]; try reflexivity; f_equal; f_equal; lia. }
  destruct a as [|c a]; [easy|].
  destruct (b_st bp) eqn:Sb.
  - destruct (Z.eqb_spec c 48) as [->|Nc].
    + destruct a as [|d a].
      * destruct b as [|e b]; [easy|].
        pose (r := base_zero 0 (b_base bp) (e :: b)).
        apply (U {| b_st := BZero; b_base := b_base bp |} (fst r) (snd r)); unfold base_parse; rewrite ?Sb; try easy;
          unfold r; cbn; destruct (parse_base (b_base bp) e) as ([|] & ?); easy.
      * destruct (parse_base (b_base bp) d) as (ok & base) eqn:Pb. destruct ok.
        -- destruct a as [|e a].
           ++ apply (U {| b_st := BDone; b_base := base |} 0%nat {| b_st := BDone; b_base := base |});
                unfold base_parse; rewrite ?Sb; cbn; rewrite ?Pb; easy.
           ++ apply (V 2%nat {| b_st := BDone; b_base := base |}); unfold base_parse; rewrite ?Sb; cbn; rewrite ?Pb; try easy; lia.
        -- apply (V 1%nat {| b_st := BZero; b_base := base |}); unfold base_parse; rewrite ?Sb; cbn; rewrite ?Pb; try easy; lia.
    + apply (V 0%nat {| b_st := BDone; b_base := set_base (b_base bp) 10 |}); unfold base_parse; rewrite ?Sb; cbn [app];
        try (rewrite (proj2 (Z.eqb_neq _ _) Nc)); try easy; cbn; lia.
  - destruct (parse_base (b_base bp) c) as (ok & base) eqn:Pb. destruct ok.
    + destruct a as [|e a].
      * apply (U {| b_st := BDone; b_base := base |} 0%nat {| b_st := BDone; b_base := base |});
          unfold base_parse; rewrite ?Sb; cbn; rewrite ?Pb; easy.
      * apply (V 1%nat {| b_st := BDone; b_base := base |}); unfold base_parse; rewrite ?Sb; cbn; rewrite ?Pb; try easy; lia.
    + apply (V 0%nat {| b_st := BZero; b_base := base |}); unfold base_parse; rewrite ?Sb; cbn; rewrite ?Pb; try easy; lia.
  - apply (V 0%nat bp); unfold base_parse; rewrite ?Sb; try easy. cbn; lia.
Qed.

Lemma int_parse_app w sg p a b : a <> [] -> b <> [] ->
  int_parse w sg p (a ++ b) = do (n, p1) <- int_parse w sg p a;
                              if Nat.eqb n (length a) then do (m, p2) <- int_parse w sg p1 b; Ok ((n + m)%nat, p2)
                              else Ok (n, p1).
Proof.
  intros A B. unfold int_parse at 1 2. destruct (i_st p) eqn:S.
  - destruct a as [|c a]; [easy|]. cbn [app].
    destruct (sign_parse sg (i_neg p) c) as (n & neg) eqn:Sg.
    assert (Hn : (n = 0 \/ n = 1)%nat).
    { unfold sign_parse in Sg. destruct (_ && _); [injection Sg; auto|].
      destruct (c =? 43); injection Sg; auto. }
    set (q := {| i_st := ISign; i_neg := neg; i_base := i_base p; i_inner := i_inner p |}).
    destruct Hn as [-> | ->]; cbn [skipn].
    + change (c :: a ++ b) with ((c :: a) ++ b). rewrite parse_sign_app by easy. reflexivity.
    + destruct a as [|d a].
      * cbn [app bind length Nat.eqb]. destruct b as [|e b]; [easy|].
        unfold int_parse. cbn [i_st q].
        unfold parse_sign, q. cbn [i_base i_neg i_st i_inner].
        destruct (base_parse (i_base p) (e :: b)) as [(k, bp)| | | |]; cbn [bind]; try reflexivity.
        destruct (skipn k (e :: b)) eqn:R; [reflexivity|].
        destruct (b_st bp); [reflexivity| |];
          unfold parse_value; cbn [i_base i_neg i_st i_inner];
          destruct (uint_parse _ _ _) as [(j, u)| | | |]; cbn [bind]; try reflexivity; f_equal; f_equal; lia.
      * cbn [app]. change (d :: a ++ b) with ((d :: a) ++ b). rewrite parse_sign_app by easy.
        cbn [length]. reflexivity.
  - rewrite parse_sign_app by easy. reflexivity.
  - rewrite (parse_value_app w sg) by easy. reflexivity.
Qed.

Lemma exec_concat w sg p chunks : Forall (fun s => s <> []) chunks ->
  exec w sg p chunks = exec w sg p [concat chunks].
Proof.
  revert p. induction chunks as [|s cs IH]; intros p F; [reflexivity|].
  inversion_clear F as [|? ? Hs Fc]. destruct cs as [|s2 cs]; [cbn [concat]; now rewrite app_nil_r|].
  assert (Hc : concat (s2 :: cs) <> []).
  { inversion_clear Fc. cbn. destruct s2; easy. }
  change (concat (s :: s2 :: cs)) with (s ++ concat (s2 :: cs)).
  cbn [exec] in IH. set (rest := s2 :: cs) in *. set (t := concat rest) in *.
  assert (E : forall q, exec w sg q [t] = do (m, q2) <- int_parse w sg q t; Ok (m, q2)).
  { intros q. cbn [exec]. destruct t as [|c t']; [easy|].
    destruct (int_parse w sg q (c :: t')) as [(m, q2)| | | |]; cbn [bind]; try reflexivity.
    destruct (Nat.eqb m _); [|reflexivity]. now rewrite Nat.add_0_r. }
  change (exec w sg p (s :: rest))
    with (match s with [] => Ok (0%nat, p) | _ => do (n, p0) <- int_parse w sg p s;
             if Nat.eqb n (length s) then do (m, p1) <- exec w sg p0 rest; Ok ((n + m)%nat, p1) else Ok (n, p0) end).
  destruct s as [|c s]; [easy|]. set (a := c :: s) in *.
  assert (X : exec w sg p [a ++ t] = do (n, p1) <- int_parse w sg p (a ++ t); Ok (n, p1)).
  { cbn [exec]. destruct (a ++ t) as [|c' t'] eqn:Q; [discriminate|]. rewrite <- Q.
    destruct (int_parse w sg p (a ++ t)) as [(m, q2)| | | |]; cbn [bind]; try reflexivity.
    destruct (Nat.eqb m _); [|reflexivity]. now rewrite Nat.add_0_r. }
  rewrite X, int_parse_app by easy.
  destruct (int_parse w sg p a) as [(n, p1)| | | |]; cbn [bind]; try reflexivity.
  destruct (Nat.eqb n (length a)); [|reflexivity].
  assert (I : exec w sg p1 rest = exec w sg p1 [t]) by (apply IH; exact Fc).
  rewrite I, E. destruct (int_parse w sg p1 t) as [(m, q2)| | | |]; reflexivity.
Qed.

(** ** Output *)
Lemma digit_count_pow fuel w : (w <= fuel)%nat -> digit_count fuel (2 ^ Z.of_nat w - 1) 2 = Z.of_nat w.
Proof.
  revert w. induction fuel as [|fuel IH]; intros w H.
  - assert (w = 0)%nat by lia. subst. reflexivity.
  - destruct w as [|w]; [reflexivity|].
    assert (E : 2 ^ Z.of_nat (S w) = 2 * 2 ^ Z.of_nat w).
    { rewrite Nat2Z.inj_succ, Z.pow_succ_r by lia. reflexivity. }
    assert (P : 0 < 2 ^ Z.of_nat w) by (apply Z.pow_pos_nonneg; lia).
    cbn [digit_count]. rewrite E.
    replace (2 * 2 ^ Z.of_nat w - 1 =? 0) with false by (symmetry; apply Z.eqb_neq; lia).
    replace ((2 * 2 ^ Z.of_nat w - 1) / 2) with (2 ^ Z.of_nat w - 1) by (apply (Z.div_unique _ _ _ 1); lia).
    rewrite IH by lia. lia.
Qed.

Lemma int_buffer_size w : 0 <= w <= 64 -> int_buffer w = w + 1.
Proof.
  intros W. unfold int_buffer. rewrite <- (Z2Nat.id w) at 1 by lia. rewrite digit_count_pow by lia. lia.
Qed.

(** Canonical digits of a number. *)
Definition canonical (b x : Z) (ds : list Z) : Prop :=
  eval b ds = x /\ Forall (fun d => 0 <= d < b) ds /\ (ds = [0] \/ exists d tl, ds = d :: tl /\ d <> 0).

Lemma digits_loop_spec b cap small a : 2 <= b -> forall n fuel x buf, 0 <= x < b ^ Z.of_nat n -> (1 <= n <= fuel)%nat ->
  Z.of_nat (length buf) + Z.of_nat n <= cap ->
  exists ds, digits_loop fuel cap small a x b buf = Ok (map (digit_char small a) ds ++ buf)
             /\ canonical b x ds /\ (length ds <= n)%nat.
Proof.
  intros B. induction n as [|n IH]; intros fuel x buf X N C; [lia|].
  destruct fuel as [|fuel]; [lia|]. cbn [digits_loop].
  replace (b =? 0) with false by (symmetry; apply Z.eqb_neq; lia).
  unfold putc. replace (Z.of_nat (length buf) <? cap) with true by (symmetry; apply Z.ltb_lt; lia).
  cbn [bind].
  pose proof (Z.mod_pos_bound x b ltac:(lia)) as Mb. pose proof (Z.div_mod x b ltac:(lia)) as Dm.
  destruct (Z.eqb_spec (x / b) 0) as [Z0|Z0].
  - exists [x mod b]. split; [reflexivity|]. split; [|cbn; lia].
    unfold canonical, eval. cbn [eval_from]. split; [lia|]. split; [repeat constructor; lia|].
    destruct (Z.eq_dec (x mod b) 0) as [E|E]; [left; now rewrite E|right; eauto].
  - assert (Q : 0 <= x / b < b ^ Z.of_nat n).
    { split; [apply Z.div_pos; lia|]. apply Z.div_lt_upper_bound; [lia|].
      rewrite Nat2Z.inj_succ, Z.pow_succ_r in X by lia. lia. }
    assert (Hn : (1 <= n)%nat). { destruct n; [change (b ^ Z.of_nat 0) with 1 in Q; lia|lia]. }
    destruct (IH fuel (x / b) (digit_char small a (x mod b) :: buf) Q ltac:(lia)
                ltac:(cbn [length]; rewrite Nat2Z.inj_succ; lia)) as (ds & E & (Ev & Fd & Cn) & L).
    exists (ds ++ [x mod b]). rewrite E. split.
    { f_equal. rewrite map_app, <- app_assoc. reflexivity. }
    split; [|rewrite app_length; cbn; lia].
    unfold canonical. split; [|split].
    + unfold eval in *. rewrite eval_from_app, Ev. cbn [eval_from]. lia.
    + apply Forall_app. split; [exact Fd|repeat constructor; lia].
    + right. destruct Cn as [-> | (d & tl & -> & Nd)]; [unfold eval in Ev; cbn in Ev; lia|].
      exists d, (tl ++ [x mod b]). split; [reflexivity|exact Nd].
Qed.

(** Characters of a numeral. *)
Definition numeral_char (upper : bool) (d : Z) : Z :=
  if d <? 10 then 48 + d else (if upper then 65 else 97) + (d - 10).
(** Prefix announcing the base, for non-zero values. *)
Definition base_prefix (f : fmt) (b x : Z) : list Z :=
  if f_showbase f && negb (x =? 0) then
    if b =? 8 then [48] else if b =? 16 then [48; (if f_uppercase f then 88 else 120)] else []
  else [].
Definition sign_prefix (sg : bool) (f : fmt) (x : Z) : list Z :=
  if x <? 0 then [45] else if sg && f_showpos f then [43] else [].

Lemma uitoa_spec w f b x : 8 <= w <= 64 -> 2 <= b <= 36 -> 0 <= x < 2 ^ w ->
  exists ds, uitoa (w + 1) f x b [] = Ok (base_prefix f b x ++ map (numeral_char (f_uppercase f)) ds)
             /\ canonical b x ds
             /\ Z.of_nat (length (base_prefix f b x)) + Z.of_nat (length ds) <= w.
Proof.
  intros W B X.
  assert (Small : forall ds, b <= 10 -> Forall (fun d => 0 <= d < b) ds ->
            map (digit_char true 0) ds = map (numeral_char (f_uppercase f)) ds).
  { intros ds B10 F. apply map_ext_in. intros d Hd. rewrite Forall_forall in F. specialize (F d Hd).
    unfold digit_char, numeral_char. replace (d <? 10) with true by (symmetry; apply Z.ltb_lt; lia). reflexivity. }
  assert (Big : forall ds, map (digit_char false (if f_uppercase f then 65 else 97)) ds
                           = map (numeral_char (f_uppercase f)) ds) by reflexivity.
  assert (Gen : forall n, 0 <= n -> b ^ n >= 2 ^ w -> 1 <= n <= w -> forall small a,
            exists ds, digits_loop uitoa_fuel (w + 1) small a x b [] = Ok (map (digit_char small a) ds ++ [])
                       /\ canonical b x ds /\ Z.of_nat (length ds) <= n).
  { intros n Hn Hp Hw small a.
    destruct (digits_loop_spec b (w + 1) small a ltac:(lia) (Z.to_nat n) uitoa_fuel x []) as (ds & H1 & H2 & H3).
    - rewrite Z2Nat.id by lia. lia.
    - unfold uitoa_fuel. lia.
    - cbn [length]. lia.
    - exists ds. repeat split; try apply H2; auto. lia. }
  assert (P2 : b ^ w >= 2 ^ w). { apply Z.le_ge, Z.pow_le_mono_l. lia. }
  unfold uitoa, base_prefix.
  destruct (Z.leb_spec b 10) as [B10|B10].
  - destruct (Z.eqb_spec b 8) as [B8|B8].
    + assert (N8 : b ^ ((w + 2) / 3) >= 2 ^ w).
      { rewrite B8. change 8 with (2 ^ 3). rewrite <- Z.pow_mul_r by (lia || (apply Z.div_pos; lia)).
        apply Z.le_ge, Z.pow_le_mono_r; [lia|]. pose proof (Z.div_mod (w + 2) 3 ltac:(lia)).
        pose proof (Z.mod_pos_bound (w + 2) 3 ltac:(lia)). lia. }
      assert (Hq : 1 <= (w + 2) / 3 <= w - 2).
      { split; [apply Z.div_le_lower_bound; lia|]. apply Z.div_le_upper_bound; lia. }
      destruct (Gen ((w + 2) / 3) ltac:(lia) N8 ltac:(lia) true 0) as (ds & E & Cn & L).
      exists ds. rewrite E, app_nil_r. cbn [bind]. rewrite (Small ds B10) by apply Cn.
      destruct (f_showbase f && negb (x =? 0)); cbn [andb].
      * unfold putc. rewrite map_length.
        replace (Z.of_nat (length ds) <? w + 1) with true by (symmetry; apply Z.ltb_lt; lia).
        split; [reflexivity|]. split; [exact Cn|]. cbn [length]. lia.
      * split; [reflexivity|]. split; [exact Cn|]. cbn [length]. lia.
    + destruct (Gen w ltac:(lia) P2 ltac:(lia) true 0) as (ds & E & Cn & L).
      exists ds. rewrite E, app_nil_r. cbn [bind]. rewrite (Small ds B10) by apply Cn.
      rewrite andb_false_r. replace (b =? 16) with false by (symmetry; apply Z.eqb_neq; lia).
      destruct (f_showbase f && negb (x =? 0)); (split; [reflexivity|]; split; [exact Cn|]; cbn [length]; lia).
  - replace (b =? 8) with false by (symmetry; apply Z.eqb_neq; lia).
    destruct (Z.eqb_spec b 16) as [B16|B16].
    + assert (N16 : b ^ ((w + 3) / 4) >= 2 ^ w).
      { rewrite B16. change 16 with (2 ^ 4). rewrite <- Z.pow_mul_r by (lia || (apply Z.div_pos; lia)).
        apply Z.le_ge, Z.pow_le_mono_r; [lia|]. pose proof (Z.div_mod (w + 3) 4 ltac:(lia)).
        pose proof (Z.mod_pos_bound (w + 3) 4 ltac:(lia)). lia. }
      assert (Hq : 1 <= (w + 3) / 4 <= w - 2).
      { split; [apply Z.div_le_lower_bound; lia|]. apply Z.div_le_upper_bound; lia. }
      destruct (Gen ((w + 3) / 4) ltac:(lia) N16 ltac:(lia) false (if f_uppercase f then 65 else 97)) as (ds & E & Cn & L).
      exists ds. rewrite E, app_nil_r. cbn [bind]. rewrite Big.
      destruct (f_showbase f && negb (x =? 0)); cbn [andb].
      * unfold putc at 1. rewrite map_length.
        replace (Z.of_nat (length ds) <? w + 1) with true by (symmetry; apply Z.ltb_lt; lia). cbn [bind].
        unfold putc. cbn [length]. rewrite map_length.
        replace (Z.of_nat (S (length ds)) <? w + 1) with true by (symmetry; apply Z.ltb_lt; lia).
        split; [destruct (f_uppercase f); reflexivity|]. split; [exact Cn|]. cbn [length]. lia.
      * split; [reflexivity|]. split; [exact Cn|]. cbn [length]. lia.
    + destruct (Gen w ltac:(lia) P2 ltac:(lia) false (if f_uppercase f then 65 else 97)) as (ds & E & Cn & L).
      exists ds. rewrite E, app_nil_r. cbn [bind]. rewrite Big. rewrite andb_false_r.
      destruct (f_showbase f && negb (x =? 0)); (split; [reflexivity|]; split; [exact Cn|]; cbn [length]; lia).
Qed.

Definition eff_base (f : fmt) : Z := if f_base f =? 0 then 10 else f_base f.

Lemma int_encode_spec w sg f x : 8 <= w <= 64 -> f_base f = 0 \/ 2 <= f_base f <= 36 -> in_ity (int_type w sg) x ->
  exists ds, int_encode w sg f x
             = Ok (sign_prefix sg f x ++ base_prefix f (eff_base f) (Z.abs x) ++ map (numeral_char (f_uppercase f)) ds)
             /\ canonical (eff_base f) (Z.abs x) ds
             /\ Z.of_nat (length (base_prefix f (eff_base f) (Z.abs x))) + Z.of_nat (length ds) <= w.
Proof.
  intros W B X. pose proof (pow2_ge w ltac:(lia)) as P.
  assert (E : 2 ^ w = 2 * 2 ^ (w - 1)).
  { replace w with (1 + (w - 1)) at 1 by lia. rewrite Z.pow_add_r by lia. reflexivity. }
  assert (Bb : 2 <= eff_base f <= 36). { unfold eff_base. destruct (Z.eqb_spec (f_base f) 0); lia. }
  unfold int_encode, sign_prefix. fold (eff_base f). rewrite int_buffer_size by lia.
  unfold in_ity, ilow, ihigh, int_type in X. cbn [bits sgn] in X.
  destruct sg.
  - destruct (Z.ltb_spec x 0) as [Ng|Ps].
    + replace ((2 ^ w - 1 - x mod 2 ^ w + 1) mod 2 ^ w) with (- x).
      2:{ replace (x mod 2 ^ w) with (x + 2 ^ w) by (apply (Z.mod_unique_pos _ _ (-1)); lia).
          rewrite Z.mod_small; lia. }
      rewrite Z.abs_neq by lia.
      destruct (uitoa_spec w f (eff_base f) (- x) W Bb ltac:(lia)) as (ds & U & Cn & L).
      exists ds. rewrite U. cbn [bind]. unfold putc. rewrite app_length, map_length.
      replace (Z.of_nat (length (base_prefix f (eff_base f) (- x)) + length ds) <? w + 1) with true
        by (symmetry; apply Z.ltb_lt; lia).
      auto.
    + rewrite (Z.mod_small x) by lia. rewrite Z.abs_eq by lia.
      destruct (uitoa_spec w f (eff_base f) x W Bb ltac:(lia)) as (ds & U & Cn & L).
      exists ds. rewrite U. cbn [bind andb]. destruct (f_showpos f); [|auto].
      unfold putc. rewrite app_length, map_length.
      replace (Z.of_nat (length (base_prefix f (eff_base f) x) + length ds) <? w + 1) with true
        by (symmetry; apply Z.ltb_lt; lia).
      auto.
  - replace (x <? 0) with false by (symmetry; apply Z.ltb_ge; lia).
    rewrite (Z.mod_small x) by lia. rewrite Z.abs_eq by lia.
    destruct (uitoa_spec w f (eff_base f) x W Bb ltac:(lia)) as (ds & U & Cn & L).
    exists ds. rewrite U. auto.
Qed.

(** ** Reading a written numeral *)
Lemma numeral_digit u b d : 0 <= d < b -> b <= 36 -> digit_in b (numeral_char u d) = Some d /\ is_char (numeral_char u d).
Proof.
  intros D B. unfold digit_in, digit_of, numeral_char, is_char.
  destruct (Z.ltb_spec d 10) as [L|L].
  - replace (48 <=? 48 + d) with true by (symmetry; apply Z.leb_le; lia).
    replace (48 + d <=? 57) with true by (symmetry; apply Z.leb_le; lia). cbn [andb].
    replace (48 + d - 48) with d by lia. replace (d <? b) with true by (symmetry; apply Z.ltb_lt; lia).
    split; [reflexivity|lia].
  - destruct u.
    + replace (65 + (d - 10) <=? 57) with false by (symmetry; apply Z.leb_gt; lia). rewrite andb_false_r.
      replace (65 <=? 65 + (d - 10)) with true by (symmetry; apply Z.leb_le; lia).
      replace (65 + (d - 10) <=? 90) with true by (symmetry; apply Z.leb_le; lia). cbn [andb].
      replace (65 + (d - 10) - 55) with d by lia. replace (d <? b) with true by (symmetry; apply Z.ltb_lt; lia).
      split; [reflexivity|lia].
    + replace (97 + (d - 10) <=? 57) with false by (symmetry; apply Z.leb_gt; lia). rewrite andb_false_r.
      replace (97 + (d - 10) <=? 90) with false by (symmetry; apply Z.leb_gt; lia). rewrite andb_false_r.
      replace (97 <=? 97 + (d - 10)) with true by (symmetry; apply Z.leb_le; lia).
      replace (97 + (d - 10) <=? 122) with true by (symmetry; apply Z.leb_le; lia). cbn [andb].
      replace (97 + (d - 10) - 87) with d by lia. replace (d <? b) with true by (symmetry; apply Z.ltb_lt; lia).
      split; [reflexivity|lia].
Qed.

(** The next character is not a digit, or there is none. *)
Definition stops (b : Z) (rest : list Z) : Prop := match rest with [] => True | c :: _ => digit_in b c = None end.

Lemma digit_run_numeral u b ds rest : b <= 36 -> Forall (fun d => 0 <= d < b) ds -> stops b rest ->
  digit_run b (map (numeral_char u) ds ++ rest) = ds.
Proof.
  intros B F S. induction F as [|d ds D F IH]; cbn [map app digit_run].
  - destruct rest as [|c rest]; [reflexivity|]. cbn [digit_run]. cbn in S. now rewrite S.
  - rewrite (proj1 (numeral_digit u b d D B)). now rewrite IH.
Qed.

Lemma fit_in t z : in_ity t z -> fit t z = Some z.
Proof. intros H. unfold fit. now rewrite (proj2 (in_ityb_spec t z) H). Qed.

Lemma round_trip w sg f x rest t : 8 <= w <= 64 -> f_base f = 0 \/ 2 <= f_base f <= 36 -> in_ity (int_type w sg) x ->
  Forall is_char rest -> stops (eff_base f) rest -> x <> 0 \/ rest = [] ->
  int_encode w sg f x = Ok t ->
  int_read w sg (f_base f) [t ++ rest] = Ok (length t, Some x).
Proof.
  intros W B X Fr St Nz E.
  destruct (int_encode_spec w sg f x W B X) as (ds & E' & (Ev & Fd & Cn) & _).
  rewrite E' in E. injection E as <-.
  assert (Bb : 2 <= eff_base f <= 36). { unfold eff_base. destruct (Z.eqb_spec (f_base f) 0); lia. }
  set (b := eff_base f) in *. set (u := f_uppercase f) in *.
  set (body := map (numeral_char u) ds) in *.
  assert (Fb : Forall is_char body).
  { unfold body. apply Forall_map. eapply Forall_impl; [|exact Fd]. intros d D.
    apply (numeral_digit u b d); [exact D|lia]. }
  assert (Fp : Forall is_char (base_prefix f b (Z.abs x))).
  { unfold base_prefix, is_char. destruct (_ && _); [|constructor].
    destruct (b =? 8); [repeat constructor; lia|]. destruct (b =? 16); [|constructor].
    destruct (f_uppercase f); repeat constructor; lia. }
  assert (Fs : Forall is_char (sign_prefix sg f x)).
  { unfold sign_prefix, is_char. destruct (x <? 0); [repeat constructor; lia|].
    destruct (_ && _); repeat constructor; lia. }
  rewrite int_read_whole by (try lia; rewrite ?Forall_app; auto).
  f_equal. unfold text_read.
  set (tail := base_prefix f b (Z.abs x) ++ body) in *.
  (* the first character after the sign *)
  assert (Hd : exists c tl, tail = c :: tl /\ c <> 45 /\ c <> 43).
  { assert (Nd : exists c tl, body = c :: tl /\ c <> 45 /\ c <> 43).
    { destruct Cn as [En | (d & tl & En & _)].
      - exists 48, []. unfold body. rewrite En. easy.
      - exists (numeral_char u d), (map (numeral_char u) tl). unfold body. rewrite En.
        rewrite En in Fd. inversion_clear Fd. split; [reflexivity|].
        unfold numeral_char. destruct (Z.ltb_spec d 10); [lia|]. destruct u; lia. }
    unfold tail, base_prefix. destruct (f_showbase f && negb (Z.abs x =? 0)); [|exact Nd].
    destruct (b =? 8); [exists 48, body; easy|]. destruct (b =? 16); [eexists _, _; split; [reflexivity|easy]|exact Nd]. }
  destruct Hd as (c0 & tl0 & Ht & N45 & N43).
  assert (S : sign_of sg ((sign_prefix sg f x ++ tail) ++ rest) = (x <? 0, length (sign_prefix sg f x))).
  { unfold sign_prefix, in_ity, ilow, ihigh, int_type in *. cbn [bits sgn] in X.
    destruct (Z.ltb_spec x 0) as [Ng|Ps].
    - destruct sg; [reflexivity|lia].
    - destruct (sg && f_showpos f) eqn:Sp; [reflexivity|]. cbn [app]. rewrite Ht. cbn [app sign_of length].
      rewrite (proj2 (Z.eqb_neq _ _) N45), (proj2 (Z.eqb_neq _ _) N43). reflexivity. }
  rewrite S. rewrite <- app_assoc, skipn_app, skipn_all, Nat.sub_diag. cbn [skipn app].
  assert (V : fit (int_type w sg) (apply_sign (x <? 0) (Z.abs x)) = Some x).
  { rewrite <- (fit_in _ _ X). f_equal. unfold apply_sign. destruct (Z.ltb_spec x 0); lia. }
  assert (R : digit_run b (body ++ rest) = ds) by (apply digit_run_numeral; [lia|exact Fd|exact St]).
  rewrite !app_length.
  assert (Lb : length body = length ds) by apply map_length.
  assert (Q : unsigned_read (f_base f) (fun v => fit (int_type w sg) (apply_sign (x <? 0) v)) (misread w sg (x <? 0)) (tail ++ rest)
              = (length tail, Some x)).
  { unfold tail, base_prefix. destruct (Z.eqb_spec (Z.abs x) 0) as [Zx|Zx]; cbn [negb]; [rewrite andb_false_r|rewrite andb_true_r].
    - (* zero *)
      destruct Nz as [Nz| ->]; [lia|]. cbn [app]. rewrite app_nil_r.
      assert (ds = [0]) as Ed.
      { destruct Cn as [En | (d & tl & En & Dn)]; [exact En|]. exfalso. rewrite En in Ev, Fd. inversion_clear Fd.
        unfold eval in Ev. cbn [eval_from] in Ev.
        pose proof (eval_from_ge b (0 * b + d) tl ltac:(lia) ltac:(lia)
          ltac:(eapply Forall_impl; [|eassumption]; cbn; lia)). lia. }
      unfold body. rewrite Ed. cbn. rewrite <- V, Zx. reflexivity.
    - assert (Nd : exists d tl, ds = d :: tl /\ d <> 0).
      { destruct Cn as [En | ?]; [|assumption]. rewrite En in Ev. unfold eval in Ev. cbn in Ev. lia. }
      destruct Nd as (d & tl & En & Dn).
      assert (Plain : f_base f = 0 /\ b = 10 \/ f_base f = b /\ b <> 0).
      { unfold b, eff_base in *. destruct (Z.eqb_spec (f_base f) 0); [left|right]; lia. }
      assert (Main : unsigned_read (f_base f) (fun v => fit (int_type w sg) (apply_sign (x <? 0) v)) (misread w sg (x <? 0)) (body ++ rest)
                     = (length body, Some x)).
      { unfold unsigned_read. destruct (body ++ rest) as [|c t] eqn:Eb.
        { apply app_eq_nil in Eb. destruct Eb as (Eb & _). unfold body in Eb. rewrite En in Eb. discriminate. }
        assert (c <> 48).
        { unfold body in Eb. rewrite En in Eb. injection Eb as <- _. rewrite En in Fd. inversion_clear Fd.
          unfold numeral_char. destruct (Z.ltb_spec d 10); [lia|]. destruct u; lia. }
        rewrite (proj2 (Z.eqb_neq c 48) H).
        replace (if f_base f =? 0 then 10 else f_base f) with b by reflexivity.
        rewrite R, Lb. rewrite En at 2. rewrite Ev, V. reflexivity. }
      destruct (f_showbase f); [|exact Main].
      destruct (Z.eqb_spec b 8) as [B8|B8].
      + assert (Fb8 : f_base f = 8) by (destruct Plain; lia).
        cbn [app]. rewrite Fb8. unfold unsigned_read. rewrite Z.eqb_refl. fold body.
        destruct (body ++ rest) as [|m t] eqn:Eb.
        { apply app_eq_nil in Eb. destruct Eb as (Eb & _). unfold body in Eb. rewrite En in Eb. discriminate. }
        assert (Em : base_mark 8 m = None).
        { unfold base_mark. rewrite !andb_false_r. reflexivity. }
        rewrite Em. cbn [Z.eqb]. rewrite <- B8, R. cbn [length]. rewrite Lb. cbn [Nat.add].
        rewrite En at 2. rewrite Ev, V. reflexivity.
      + destruct (Z.eqb_spec b 16) as [B16|B16]; [|exact Main].
        assert (Fb16 : f_base f = 16) by (destruct Plain; lia).
        cbn [app]. rewrite Fb16. unfold unsigned_read. rewrite Z.eqb_refl.
        assert (Em : base_mark 16 (if u then 88 else 120) = Some 16) by (destruct u; reflexivity).
        fold u. rewrite Em, <- B16, R. cbn [length]. rewrite Lb. cbn [Nat.add].
        rewrite En at 2. rewrite Ev, V. reflexivity. }
  rewrite Q. cbn [fst snd]. reflexivity.
Qed.
