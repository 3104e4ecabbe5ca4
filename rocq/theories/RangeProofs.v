(** Proofs about ranges (C53 - C55, C57 and further range properties). *)
From Coq Require Import ZArith List Bool Lia PeanoNat.
From Verif Require Import Outcome IntTypes ListLemmas RangeModel.
Import ListNotations.
Local Open Scope Z_scope.

(** ** Integer ranges *)

(** The arithmetic progression a, a+s, ..., of n terms. *)
Fixpoint progression (a s : Z) (n : nat) : list Z :=
  match n with O => [] | S n => a :: progression (a + s) s n end.

Lemma progression_nth : forall n a s k d, (k < n)%nat ->
  nth k (progression a s n) d = a + Z.of_nat k * s.
Proof.
  induction n; intros a s k d H; [lia|]. destruct k; cbn [progression nth].
  - lia.
  - rewrite IHn by lia. lia.
Qed.

Lemma progression_length : forall n a s, length (progression a s n) = n.
Proof. induction n; intros; simpl; [reflexivity|]. now rewrite IHn. Qed.

Lemma progression_in : forall n a s x,
  In x (progression a s n) <-> exists k, 0 <= k < Z.of_nat n /\ x = a + k * s.
Proof.
  induction n; intros a s x; cbn [progression In].
  - split; [easy|]. intros (k & H & _). lia.
  - rewrite IHn. split.
    + intros [<-|(k & H & ->)]; [exists 0; lia|]. exists (k + 1). lia.
    + intros (k & H & ->). destruct (Z.eq_dec k 0) as [->|]; [left; lia|].
      right. exists (k - 1). lia.
Qed.

Section Iterate.
  Variables (t : ity) (Ht : 0 < bits t).

  Lemma next_value v s : in_ity t v ->
    (sgn t = false \/ (in_ity t s /\ in_ity t (v + s))) ->
    iarith t (v + wrap t s) = Ok (wrap t (v + s)).
  Proof.
    intros Hv [S|[Hs Hvs]].
    - rewrite iarith_unsigned by assumption. f_equal. apply wrap_congr; [assumption|].
      rewrite Zplus_mod, wrap_mod, <- Zplus_mod by assumption. reflexivity.
    - rewrite (wrap_id t s), (wrap_id t (v + s)) by assumption. now apply iarith_in.
  Qed.

  (** Iteration over values a, a+s, ..., a+(n-1)s of the type up to the end
      value [wrap (a+n*s)]. *)
  Lemma iterate_ok : forall n a s e fuel,
    (forall k, 0 <= k < Z.of_nat n -> in_ity t (a + k * s)) ->
    in_ity t a ->
    (sgn t = false \/ (in_ity t s /\ in_ity t (a + Z.of_nat n * s))) ->
    e = wrap t (a + Z.of_nat n * s) ->
    (forall k, 0 <= k < Z.of_nat n -> a + k * s <> e) ->
    (n <= fuel)%nat -> forall st,
    iterate fuel t {| ivalue := a; istep := s |} {| ivalue := e; istep := st |}
    = Ok (progression a s n).
  Proof.
    induction n as [|n IH]; intros a s e fuel V Va S E D F st.
    - replace (a + Z.of_nat 0 * s) with a in E by lia. rewrite wrap_id in E by assumption.
      subst e. destruct fuel; cbn [iterate ivalue]; now rewrite Z.eqb_refl.
    - destruct fuel as [|fuel]; [lia|]. cbn [iterate ivalue].
      destruct (Z.eqb_spec a e) as [X|_].
      { exfalso. apply (D 0); lia. }
      unfold iiter_next. cbn [ivalue istep].
      assert (Vs : n = 0%nat \/ in_ity t (a + s)).
      { destruct n; [now left|right]. replace (a + s) with (a + 1 * s) by lia. apply V. lia. }
      rewrite next_value; [|assumption|].
      2:{ destruct S as [S|[S1 S2]]; [now left|right]. split; [assumption|].
          destruct Vs as [->|Vs]; [|assumption]. replace (a + s) with (a + Z.of_nat 1 * s) by lia.
          assumption. }
      cbn [bind].
      destruct n as [|n].
      + (* last element: the next value is the end *)
        replace (a + Z.of_nat 1 * s) with (a + s) in E by lia.
        subst e. destruct fuel; cbn [iterate ivalue]; rewrite Z.eqb_refl; reflexivity.
      + destruct Vs as [X|Vs]; [discriminate|]. rewrite (wrap_id t (a + s)) by assumption.
        rewrite (IH (a + s) s e fuel); [reflexivity| | | | | |].
        * intros k Hk. replace (a + s + k * s) with (a + (k + 1) * s) by lia. apply V. lia.
        * assumption.
        * destruct S as [S|[S1 S2]]; [now left|right]. split; [assumption|].
          replace (a + s + Z.of_nat (S n) * s) with (a + Z.of_nat (Datatypes.S (Datatypes.S n)) * s) by lia.
          assumption.
        * rewrite E. f_equal. lia.
        * intros k Hk. replace (a + s + k * s) with (a + (k + 1) * s) by lia. apply D. lia.
        * lia.
  Qed.
End Iterate.

(** irange(first, last) *)
Lemma irange_ok t first last fuel : 0 < bits t -> (sgn t = true -> 2 <= bits t) ->
  in_ity t first -> in_ity t last ->
  (Z.to_nat (last - first) <= fuel)%nat ->
  iterate fuel t (fst (irange first last)) (snd (irange first last))
  = Ok (progression first 1 (Z.to_nat (last - first))).
Proof.
  intros Hb Hb2 Hf Hl F. unfold irange. destruct (Z.geb_spec first last) as [G|G]; cbn [fst snd].
  - replace (Z.to_nat (last - first)) with 0%nat by lia.
    destruct fuel; cbn [iterate ivalue]; now rewrite Z.eqb_refl.
  - assert (EL : first + Z.of_nat (Z.to_nat (last - first)) * 1 = last) by lia.
    apply iterate_ok; try assumption.
    + intros k Hk. unfold in_ity in *. lia.
    + destruct (sgn t) eqn:S; [right|now left]. split; [|now rewrite EL].
      unfold in_ity, ilow, ihigh. rewrite S. specialize (Hb2 eq_refl).
      pose proof (Z.pow_le_mono_r 2 1 (bits t - 1) ltac:(lia) ltac:(lia)) as P.
      change (2 ^ 1) with 2 in P. lia.
    + rewrite EL. symmetry. now apply wrap_id.
    + lia.
Qed.

(** drange(first, last): last - 1 must not be a signed overflow. *)
Lemma drange_ok t first last fuel : 0 < bits t ->
  in_ity t first -> in_ity t last -> (sgn t = true -> in_ity t (last - 1)) ->
  (sgn t = false -> first - last + 1 < 2 ^ bits t) ->
  (Z.to_nat (first - last + 1) <= fuel)%nat ->
  exists r, drange t first last = Ok r /\
  iterate fuel t (fst r) (snd r) = Ok (progression first (-1) (Z.to_nat (first - last + 1))).
Proof.
  intros Hb Hf Hl Ho Hm F. unfold drange. destruct (Z.ltb_spec first last) as [G|G].
  - eexists. split; [reflexivity|]. cbn [fst snd].
    replace (Z.to_nat (first - last + 1)) with 0%nat by lia.
    destruct fuel; cbn [iterate ivalue]; now rewrite Z.eqb_refl.
  - assert (X : iarith t (last - 1) = Ok (wrap t (last - 1))).
    { destruct (sgn t) eqn:S.
      - specialize (Ho eq_refl). rewrite wrap_id by assumption. now apply iarith_in.
      - now apply iarith_unsigned. }
    rewrite X. cbn [bind]. eexists. split; [reflexivity|]. cbn [fst snd].
    assert (EL : first + Z.of_nat (Z.to_nat (first - last + 1)) * -1 = last - 1) by lia.
    apply iterate_ok; try assumption.
    + intros k Hk. unfold in_ity in *. lia.
    + destruct (sgn t) eqn:S; [right|now left]. specialize (Ho eq_refl).
      split; [|now rewrite EL]. unfold in_ity, ilow, ihigh in *. rewrite S in *.
      pose proof (Z.pow_pos_nonneg 2 (bits t - 1) ltac:(lia) ltac:(lia)). lia.
    + now rewrite EL.
    + intros k Hk E.
      assert (Hin : in_ity t (last - 1) \/ (sgn t = false /\ last = 0)).
      { destruct (sgn t) eqn:S; [left; now apply Ho|].
        unfold in_ity, ilow, ihigh in *. rewrite S in *. lia. }
      destruct Hin as [Hin|[S ->]].
      * rewrite wrap_id in E by assumption. lia.
      * assert (W : wrap t (0 - 1) = 2 ^ bits t - 1).
        { unfold wrap, ilow. rewrite S. symmetry.
          rewrite Z.add_0_r. apply Z.mod_unique with (-1); lia. }
        rewrite W in E.
        unfold in_ity, ilow, ihigh in *. rewrite S in *.
        specialize (Hm eq_refl). lia.
Qed.

(** irange(first, last, step): number of terms. *)
Definition ceil_div (a b : Z) : Z := - ((- a) / b).

Lemma ceil_div_spec a b : 0 < b -> (ceil_div a b - 1) * b < a <= ceil_div a b * b.
Proof.
  intro H. unfold ceil_div. pose proof (Z.div_mod (- a) b ltac:(lia)).
  pose proof (Z.mod_pos_bound (- a) b H). nia.
Qed.

Lemma irange_step_up t first last step fuel : 1 < bits t ->
  in_ity t first -> in_ity t last -> in_ity t (last - first) -> 0 < step -> in_ity t step ->
  let n := Z.max 0 (ceil_div (last - first) step) in
  in_ity t (step * n) -> in_ity t (first + step * n) -> (Z.to_nat n <= fuel)%nat ->
  exists r, irange_step t first last step = Ok r
  /\ iterate fuel t (fst r) (snd r) = Ok (progression first step (Z.to_nat n)).
Proof.
  intros Hb Hf Hl Hd Hs Hst n Hp Hn F.
  pose proof (ceil_div_spec (last - first) step Hs) as C. set (c := ceil_div _ _) in *.
  unfold irange_step. destruct (Z.eqb_spec step 0); [lia|]. cbn [negb assert_then].
  replace (0 <? step) with true by (symmetry; apply Z.ltb_lt; lia).
  destruct (Z.geb_spec first last) as [G|G].
  - eexists. split; [reflexivity|]. cbn [fst snd].
    assert (n = 0) by nia. replace (Z.to_nat n) with 0%nat by lia.
    destruct fuel; cbn [iterate ivalue]; now rewrite Z.eqb_refl.
  - cbn [b2z].
    assert (Hc : n = c) by nia. rewrite Hc in *. clear n Hc.
    assert (Q : Z.quot (last - first - 1) step = c - 1).
    { rewrite Z.quot_div_nonneg by lia. symmetry.
      apply Z.div_unique with (last - first - 1 - step * (c - 1)); nia. }
    pose proof (Z.pow_pos_nonneg 2 (bits t - 1) ltac:(lia) ltac:(lia)) as P.
    assert (L0 : ilow t <= 0) by (unfold ilow; destruct (sgn t); lia).
    assert (I1 : in_ity t (last - first - 1)) by (unfold in_ity in *; lia).
    assert (I2 : in_ity t (c - 1)) by (unfold in_ity in *; nia).
    assert (I3 : in_ity t c) by (unfold in_ity in *; nia).
    rewrite (iarith_in t (last - first)) by assumption. cbn [bind].
    rewrite iarith_in by assumption. cbn [bind].
    rewrite (wrap_id t step) by (assumption || lia). rewrite Q.
    rewrite iarith_in by assumption. cbn [bind]. replace (c - 1 + 1) with c by lia.
    rewrite (iarith_in t c) by assumption. cbn [bind].
    rewrite iarith_in by assumption. cbn [bind].
    rewrite iarith_in by assumption. cbn [bind].
    eexists. split; [reflexivity|]. cbn [fst snd].
    assert (EL : first + Z.of_nat (Z.to_nat c) * step = first + step * c).
    { rewrite Z2Nat.id by nia. lia. }
    apply iterate_ok; try assumption; try lia.
    + intros k Hk. unfold in_ity in *. rewrite Z2Nat.id in Hk by nia. nia.
    + right. split; [assumption|]. now rewrite EL.
    + rewrite EL. symmetry. apply wrap_id; [lia|assumption].
    + intros k Hk. rewrite Z2Nat.id in Hk by nia. nia.
Qed.

(** Negative step: the bound is inclusive; signed types. *)
Lemma irange_step_down t first last step fuel : 1 < bits t -> sgn t = true ->
  in_ity t first -> in_ity t last -> in_ity t (last - first) -> step < 0 -> in_ity t step ->
  let n := Z.max 0 ((first - last) / (- step) + 1) in
  in_ity t n -> in_ity t (step * n) -> in_ity t (first + step * n) -> (Z.to_nat n <= fuel)%nat ->
  exists r, irange_step t first last step = Ok r
  /\ iterate fuel t (fst r) (snd r) = Ok (progression first step (Z.to_nat n)).
Proof.
  intros Hb Sg Hf Hl Hd Hs Hst n Hin Hp Hn F.
  pose proof (Z.div_mod (first - last) (- step) ltac:(lia)) as C1.
  pose proof (Z.mod_pos_bound (first - last) (- step) ltac:(lia)) as C2.
  set (c := (first - last) / - step) in *.
  unfold irange_step. destruct (Z.eqb_spec step 0); [lia|]. cbn [negb assert_then].
  replace (0 <? step) with false by (symmetry; apply Z.ltb_ge; lia).
  destruct (Z.ltb_spec first last) as [G|G].
  - eexists. split; [reflexivity|]. cbn [fst snd].
    assert (n = 0) by nia. replace (Z.to_nat n) with 0%nat by lia.
    destruct fuel; cbn [iterate ivalue]; now rewrite Z.eqb_refl.
  - cbn [b2z].
    assert (Hc : n = c + 1) by nia. rewrite Hc in *. clear n Hc.
    assert (Q : Z.quot (last - first) step = c).
    { rewrite <- (Z.opp_involutive last), <- (Z.opp_involutive step), Z.quot_opp_r by lia.
      replace (- - last - first) with (- (first - last)) by lia.
      rewrite Z.quot_opp_l by lia. rewrite Z.quot_div_nonneg by lia.
      unfold c. lia. }
    pose proof (Z.pow_pos_nonneg 2 (bits t - 1) ltac:(lia) ltac:(lia)) as P.
    assert (L0 : ilow t <= 0) by (unfold ilow; destruct (sgn t); lia).
    assert (I2 : in_ity t c) by (unfold in_ity in *; nia).
    rewrite (iarith_in t (last - first)) by assumption. cbn [bind].
    replace (last - first - 0) with (last - first) by lia.
    rewrite (iarith_in t (last - first)) by assumption. cbn [bind].
    rewrite (wrap_id t step) by (assumption || lia). rewrite Q.
    rewrite iarith_in by assumption. cbn [bind].
    rewrite (iarith_in t (c + 1)) by assumption. cbn [bind].
    rewrite iarith_in by assumption. cbn [bind].
    rewrite iarith_in by assumption. cbn [bind].
    eexists. split; [reflexivity|]. cbn [fst snd].
    assert (EL : first + Z.of_nat (Z.to_nat (c + 1)) * step = first + step * (c + 1)).
    { rewrite Z2Nat.id by nia. lia. }
    apply iterate_ok; try assumption; try lia.
    + intros k Hk. unfold in_ity in *. rewrite Z2Nat.id in Hk by nia. nia.
    + right. split; [assumption|]. now rewrite EL.
    + rewrite EL. symmetry. apply wrap_id; [lia|assumption].
    + intros k Hk. rewrite Z2Nat.id in Hk by nia. nia.
Qed.

(** size() of signed ranges. *)
Lemma iiter_diff_ok t a s n : 1 < bits t -> sgn t = true -> s <> 0 -> in_ity t s ->
  in_ity t (s * n) -> in_ity t n ->
  iiter_diff t {| ivalue := a + s * n; istep := s |} {| ivalue := a; istep := s |} = Ok n.
Proof.
  intros Hb Sg Hs Is Ip In. unfold iiter_diff. cbn [istep ivalue].
  rewrite Z.eqb_refl. cbn [assert_then].
  replace (a + s * n - a) with (s * n) by lia. rewrite iarith_in by assumption. cbn [bind].
  rewrite wrap_id by (assumption || lia).
  rewrite (Z.mul_comm s n), Z.rem_mul by assumption. cbn [Z.eqb assert_then].
  rewrite Z.quot_mul by assumption. now apply iarith_in.
Qed.

(** ** Cyclic iterator *)

Lemma cyc_next_ok n p : 0 <= p < n -> cyc_next n p = (p + 1) mod n.
Proof.
  intro H. unfold cyc_next. destruct (Z.eqb_spec (p + 1) n) as [E|E].
  - rewrite E, Z.mod_same by lia. reflexivity.
  - rewrite Z.mod_small; lia.
Qed.

Lemma cyc_prev_ok n p : 0 <= p < n -> cyc_prev n p = (p - 1) mod n.
Proof.
  intro H. unfold cyc_prev. destruct (Z.eqb_spec p 0) as [E|E].
  - subst. apply Z.mod_unique with (-1); lia.
  - rewrite Z.mod_small; lia.
Qed.

Lemma cyc_add_ok n p d : 0 <= p < n -> Z.abs d < n -> cyc_add n p d = Ok ((p + d) mod n).
Proof.
  intros H D. unfold cyc_add. rewrite (proj2 (Z.ltb_lt _ _) D). cbn [assert_then].
  destruct (Z.ltb_spec 0 d).
  - destruct (Z.geb_spec d (n - p)); f_equal.
    + apply Z.mod_unique with 1; lia.
    + rewrite Z.mod_small; lia.
  - destruct (Z.gtb_spec (- d) p); f_equal.
    + apply Z.mod_unique with (-1); lia.
    + rewrite Z.mod_small; lia.
Qed.

Lemma cyc_diff_ok n l r : 0 <= l < n -> 0 <= r < n -> cyc_diff n l r = (l - r) mod n.
Proof.
  intros Hl Hr. unfold cyc_diff. destruct (Z.leb_spec 0 (l - r)).
  - rewrite Z.mod_small; lia.
  - apply Z.mod_unique with (-1); lia.
Qed.

(** ** Filtered range *)

Section Filtered.
  Context {A : Type}.
  Variable pred : A -> bool.

  (** Valid positions of the filtered iterator. *)
  Definition fr_valid (xs : list A) (p : nat) : Prop :=
    p = length xs \/ exists a, nth_error xs p = Some a /\ pred a = true.

  Lemma find_next_ok : forall fuel xs p, (p <= length xs)%nat -> (length xs - p <= fuel)%nat ->
    exists q, find_next pred fuel xs p = Ok q /\ (p <= q <= length xs)%nat /\ fr_valid xs q
      /\ forall i a, (p <= i < q)%nat -> nth_error xs i = Some a -> pred a = false.
  Proof.
    induction fuel as [|fuel IH]; intros xs p Hp F; cbn [find_next];
      destruct (Nat.eqb_spec p (length xs)) as [E|E].
    - exists p. repeat split; try lia. now left.
    - lia.
    - exists p. repeat split; try lia. now left.
    - destruct (nth_error xs p) as [a|] eqn:N; [|apply nth_error_None in N; lia].
      destruct (pred a) eqn:P.
      + exists p. repeat split; try lia. right. eauto.
      + destruct (IH xs (S p)) as (q & E' & R & V & H); [lia|lia|].
        exists q. split; [exact E'|]. split; [lia|]. split; [exact V|].
        intros i b Hi Hb. destruct (Nat.eq_dec i p) as [->|]; [congruence|].
        apply (H i); [lia|exact Hb].
  Qed.

  Lemma filter_skip : forall (xs : list A) p q, (p <= q <= length xs)%nat ->
    (forall i a, (p <= i < q)%nat -> nth_error xs i = Some a -> pred a = false) ->
    filter pred (skipn p xs) = filter pred (skipn q xs).
  Proof.
    intros xs p q Hq H.
    assert (G : forall k, (p + k <= q)%nat -> filter pred (skipn p xs) = filter pred (skipn (p + k) xs)).
    { induction k as [|k IH]; intro Hk; [now rewrite Nat.add_0_r|].
      rewrite IH by lia. destruct (nth_error xs (p + k)) as [a|] eqn:N;
        [|apply nth_error_None in N; lia].
      rewrite (skipn_cons_nth _ _ _ N). simpl. rewrite (H (p + k)%nat a) by (lia || assumption).
      now replace (p + S k)%nat with (S (p + k)) by lia. }
    replace q with (p + (q - p))%nat by lia. apply G. lia.
  Qed.

  Lemma filter_first : forall (xs : list A) p q, (p <= q <= length xs)%nat ->
    (forall i a, (p <= i < q)%nat -> nth_error xs i = Some a -> pred a = false) ->
    filter pred (firstn q xs) = filter pred (firstn p xs).
  Proof.
    intros xs p q Hq H.
    assert (G : forall k, (p + k <= q)%nat -> filter pred (firstn (p + k) xs) = filter pred (firstn p xs)).
    { induction k as [|k IH]; intro Hk; [now rewrite Nat.add_0_r|].
      rewrite <- IH by lia. destruct (nth_error xs (p + k)) as [a|] eqn:N;
        [|apply nth_error_None in N; lia].
      replace (p + S k)%nat with (S (p + k)) by lia.
      rewrite (firstn_snoc_nth _ _ _ N), filter_app. simpl.
      rewrite (H (p + k)%nat a) by (lia || assumption). now rewrite app_nil_r. }
    replace q with (p + (q - p))%nat by lia. apply G. lia.
  Qed.

  Lemma fr_forward_ok : forall fuel xs p, fr_valid xs p -> (p <= length xs)%nat ->
    (length xs - p <= fuel)%nat ->
    fr_forward pred fuel xs p (length xs) = Ok (filter pred (skipn p xs)).
  Proof.
    induction fuel as [|fuel IH]; intros xs p V Hp F; cbn [fr_forward];
      destruct (Nat.eqb_spec p (length xs)) as [E|E].
    - now rewrite E, skipn_all.
    - lia.
    - now rewrite E, skipn_all.
    - destruct V as [V|(a & N & P)]; [contradiction|].
      unfold deref. rewrite N. cbn [bind]. unfold fr_next.
      destruct (Nat.leb_spec (length xs) p); [lia|].
      destruct (find_next_ok (length xs) xs (S p)) as (q & E' & R & V & H0); [lia|lia|].
      unfold fr_find. rewrite E'. cbn [bind]. rewrite IH by (assumption || lia). cbn [bind].
      rewrite (skipn_cons_nth _ _ _ N). cbn [filter]. rewrite P.
      f_equal. f_equal. symmetry. apply filter_skip; [lia|assumption].
  Qed.

  Lemma fr_end_ok xs : fr_end pred xs = Ok (length xs).
  Proof.
    unfold fr_end, fr_find. destruct (length xs) eqn:E; cbn [find_next]; rewrite E, Nat.eqb_refl; reflexivity.
  Qed.

  Lemma fr_list_ok xs : fr_list pred xs = Ok (filter pred xs).
  Proof.
    unfold fr_list. rewrite fr_end_ok. unfold fr_begin, fr_find.
    destruct (find_next_ok (length xs) xs 0) as (q & E & R & V & H); [lia|lia|].
    rewrite E. cbn [bind]. rewrite fr_forward_ok by (assumption || lia).
    f_equal. symmetry. apply (filter_skip xs 0 q); [lia|assumption].
  Qed.

  Lemma fr_prev_ok : forall fuel xs p, (p <= length xs)%nat -> (p <= fuel)%nat ->
    (exists i a, (i < p)%nat /\ nth_error xs i = Some a /\ pred a = true) ->
    exists q a, fr_prev pred fuel xs p = Ok q /\ (q < p)%nat
      /\ nth_error xs q = Some a /\ pred a = true
      /\ forall i b, (q < i < p)%nat -> nth_error xs i = Some b -> pred b = false.
  Proof.
    induction fuel as [|fuel IH]; intros xs p Hp F (i & a & Hi & N & P); [lia|].
    destruct p as [|p]; [lia|]. cbn [fr_prev].
    destruct (nth_error xs p) as [b|] eqn:Nb; [|apply nth_error_None in Nb; lia].
    destruct (pred b) eqn:Pb.
    - exists p, b. repeat split; try assumption; lia.
    - destruct (Nat.eq_dec i p) as [->|]; [congruence|].
      destruct (IH xs p) as (q & c & E & L & Nc & Pc & H); [lia|lia| |].
      + exists i, a. repeat split; try assumption. lia.
      + exists q, c. split; [exact E|]. split; [lia|]. split; [exact Nc|]. split; [exact Pc|].
        intros j d Hj Hd. destruct (Nat.eq_dec j p) as [->|]; [congruence|].
        apply (H j); [lia|assumption].
  Qed.

  Lemma fr_backward_ok : forall fuel xs p b,
    fr_valid xs b -> (b <= p <= length xs)%nat -> (p - b <= fuel)%nat ->
    fr_backward pred fuel xs p b = Ok (rev (filter pred (skipn b (firstn p xs)))).
  Proof.
    induction fuel as [|fuel IH]; intros xs p b V Hp F; cbn [fr_backward];
      destruct (Nat.eqb_spec p b) as [E|E].
    - subst. rewrite skipn_all2; [reflexivity|]. rewrite firstn_length. lia.
    - lia.
    - subst. rewrite skipn_all2; [reflexivity|]. rewrite firstn_length. lia.
    - destruct V as [V|(a & N & P)]; [lia|].
      destruct (fr_prev_ok (length xs) xs p) as (q & c & E' & L & Nc & Pc & H);
        [lia|lia|exists b, a; repeat split; try assumption; lia|].
      rewrite E'. cbn [bind]. unfold deref. rewrite Nc. cbn [bind].
      assert (Lq : (b <= q)%nat).
      { destruct (Nat.le_gt_cases b q); [assumption|].
        rewrite (H b a) in P by (lia || assumption). discriminate. }
      rewrite IH; [|right; eauto|lia|lia]. cbn [bind]. f_equal.
      rewrite <- rev_unit. f_equal.
      (* firstn p = firstn q ++ c :: mid *)
      assert (D : firstn p xs = firstn q xs ++ c :: skipn (S q) (firstn p xs)).
      { rewrite <- (firstn_skipn q (firstn p xs)) at 1. f_equal.
        - rewrite firstn_firstn. f_equal. lia.
        - apply skipn_cons_nth. rewrite nth_error_firstn_lt by lia. assumption. }
      rewrite D. rewrite skipn_app. rewrite filter_app. f_equal.
      rewrite firstn_length. replace (b - Nat.min q (length xs))%nat with 0%nat by lia.
      rewrite skipn_O. cbn [filter]. rewrite Pc. f_equal.
      symmetry. apply filter_nil_forall. apply Forall_forall. intros x Hx.
      apply In_nth_error in Hx as (k & Hk).
      rewrite nth_error_skipn_add in Hk.
      assert (Hlt : (S q + k < p)%nat).
      { assert (nth_error (firstn p xs) (S q + k) <> None) as X by congruence.
        apply nth_error_Some in X. rewrite firstn_length in X. lia. }
      rewrite nth_error_firstn_lt in Hk by assumption.
      apply (H (S q + k)%nat); [lia|assumption].
  Qed.

  Lemma fr_rlist_ok xs : fr_rlist pred xs = Ok (rev (filter pred xs)).
  Proof.
    unfold fr_rlist. rewrite fr_end_ok. unfold fr_begin, fr_find.
    destruct (find_next_ok (length xs) xs 0) as (q & E & R & V & H); [lia|lia|].
    rewrite E. cbn [bind]. rewrite fr_backward_ok by (assumption || lia).
    rewrite firstn_all. f_equal. f_equal. symmetry. apply (filter_skip xs 0 q); [lia|assumption].
  Qed.

  (** ++ then -- returns to the same element; -- then ++ likewise. *)
  Lemma fr_next_prev xs p q : fr_valid xs p -> fr_next pred xs p = Ok q ->
    fr_prev pred (length xs) xs q = Ok p /\ fr_valid xs q.
  Proof.
    intros V N. unfold fr_next in N. destruct (Nat.leb_spec (length xs) p) as [|Hp]; [discriminate|].
    destruct V as [V|(a & Na & Pa)]; [lia|].
    destruct (find_next_ok (length xs) xs (S p)) as (q' & E & R & V & H); [lia|lia|].
    unfold fr_find in N. rewrite E in N. injection N as ->.
    destruct (fr_prev_ok (length xs) xs q) as (r & c & E' & L & Nc & Pc & H');
      [lia|lia|exists p, a; repeat split; try assumption; lia|].
    split; [|assumption]. rewrite E'. f_equal.
    destruct (Nat.lt_trichotomy r p) as [X|[X|X]]; [|assumption|].
    - rewrite (H' p a) in Pa by (lia || assumption). discriminate.
    - rewrite (H r c) in Pc by (lia || assumption). discriminate.
  Qed.

  Lemma fr_prev_next xs p q : fr_valid xs p -> (p <= length xs)%nat ->
    (exists i a, (i < p)%nat /\ nth_error xs i = Some a /\ pred a = true) ->
    fr_prev pred (length xs) xs p = Ok q -> fr_next pred xs q = Ok p.
  Proof.
    intros V Hp Ex N.
    destruct (fr_prev_ok (length xs) xs p Hp Hp Ex) as (r & c & E & L & Nc & Pc & H).
    rewrite E in N. injection N as ->. unfold fr_next.
    destruct (Nat.leb_spec (length xs) q); [lia|]. unfold fr_find.
    destruct (find_next_ok (length xs) xs (S q)) as (q' & E' & R & V' & H'); [lia|lia|].
    rewrite E'. f_equal. destruct (Nat.lt_trichotomy q' p) as [X|[X|X]]; [|assumption|].
    - destruct V' as [V'|(a & Na & Pa)]; [lia|]. rewrite (H q' a) in Pa by (lia || assumption). discriminate.
    - destruct V as [V|(a & Na & Pa)]; [lia|]. rewrite (H' p a) in Pa by (lia || assumption). discriminate.
  Qed.
End Filtered.

(** ** Lexicographical comparison *)

(** Element comparison: the sign of op is a total preorder. *)
Record order3 {A} (op : A -> A -> Z) : Prop := {
  o3_refl : forall x, op x x = 0;
  o3_anti : forall x y, Z.sgn (op x y) = - Z.sgn (op y x);
  o3_trans : forall x y z, op x y <= 0 -> op y z <= 0 -> op x z <= 0
}.

(** Pairwise equivalent prefix. *)
Fixpoint eqv_prefix {A} (op : A -> A -> Z) (l r : list A) : Prop :=
  match l, r with
  | [], _ => True
  | x :: l, y :: r => op x y = 0 /\ eqv_prefix op l r
  | _ :: _, [] => False
  end.

Lemma lex_diff {A} (op : A -> A -> Z) : forall l r p q x y,
  l = p ++ x :: q -> forall p' q', r = p' ++ y :: q' -> length p = length p' ->
  eqv_prefix op p p' -> op x y <> 0 -> lex_compare_range op l r = op x y.
Proof.
  intros l r p. revert l r. induction p as [|a p IH]; intros l r q x y -> p' q' -> L E N.
  - destruct p'; [|discriminate]. cbn [app lex_compare_range]. cbv zeta.
    destruct (Z.eqb_spec (op x y) 0); [contradiction|reflexivity].
  - destruct p' as [|b p']; [discriminate|]. cbn [app lex_compare_range]. cbv zeta.
    destruct E as [E1 E2]. rewrite E1. cbn [Z.eqb].
    eapply IH; eauto.
Qed.

Lemma lex_zero {A} (op : A -> A -> Z) : forall l r,
  lex_compare_range op l r = 0 <-> (length l = length r /\ eqv_prefix op l r).
Proof.
  induction l as [|x l IH]; intros [|y r]; cbn [lex_compare_range eqv_prefix b2z length].
  - intuition lia.
  - split; [lia|]. intros [H _]. discriminate.
  - split; [lia|]. intros [H _]. discriminate.
  - cbv zeta. destruct (Z.eqb_spec (op x y) 0) as [E|E].
    + rewrite IH. intuition; try lia; congruence.
    + intuition; contradiction.
Qed.

Lemma lex_proper_prefix {A} (op : A -> A -> Z) : forall l r,
  (length l < length r)%nat -> eqv_prefix op l r -> lex_compare_range op l r = 1.
Proof.
  induction l as [|x l IH]; intros [|y r] L E; cbn [length] in L; try lia.
  - reflexivity.
  - destruct E as [E1 E2]. cbn [lex_compare_range]. cbv zeta. rewrite E1. cbn [Z.eqb]. apply IH; [lia|assumption].
Qed.

Lemma lex_proper_prefix_r {A} (op : A -> A -> Z) : forall l r,
  (length r < length l)%nat -> eqv_prefix (fun x y => op y x) r l -> lex_compare_range op l r = -1.
Proof.
  induction l as [|x l IH]; intros [|y r] L E; cbn [length] in L; try lia.
  - reflexivity.
  - destruct E as [E1 E2]. cbn [lex_compare_range]. cbv zeta. rewrite E1. cbn [Z.eqb]. apply IH; [lia|assumption].
Qed.

Lemma lex_anti {A} (op : A -> A -> Z) : order3 op -> forall l r,
  Z.sgn (lex_compare_range op l r) = - Z.sgn (lex_compare_range op r l).
Proof.
  intro O. induction l as [|x l IH]; intros [|y r]; cbn [lex_compare_range b2z]; try reflexivity.
  cbv zeta. pose proof (o3_anti _ O x y) as X.
  destruct (Z.eqb_spec (op x y) 0), (Z.eqb_spec (op y x) 0); try apply IH; lia.
Qed.

Lemma o3_eq_trans {A} (op : A -> A -> Z) : order3 op -> forall x y z,
  (op x y = 0 -> op y z = 0 -> op x z = 0)
  /\ (op x y <= 0 -> op y z < 0 -> op x z < 0)
  /\ (op x y < 0 -> op y z <= 0 -> op x z < 0).
Proof.
  intros O x y z.
  pose proof (o3_anti _ O x y). pose proof (o3_anti _ O y z). pose proof (o3_anti _ O x z).
  pose proof (o3_trans _ O x y z). pose proof (o3_trans _ O z y x).
  pose proof (o3_trans _ O y z x). pose proof (o3_trans _ O z x y).
  repeat split; intros; lia.
Qed.

(** The computed order is still transitive (prefixes are greater). *)
Lemma lex_trans {A} (op : A -> A -> Z) : order3 op -> forall l m r,
  lex_compare_range op l m <= 0 -> lex_compare_range op m r <= 0 -> lex_compare_range op l r <= 0.
Proof.
  intro O. induction l as [|x l IH]; intros [|y m] [|z r]; cbn [lex_compare_range b2z]; cbv zeta; try lia.
  pose proof (o3_eq_trans _ O x y z) as (T1 & T2 & T3).
  destruct (Z.eqb_spec (op x y) 0) as [E1|E1], (Z.eqb_spec (op y z) 0) as [E2|E2]; intros H1 H2.
  - rewrite T1 by assumption. cbn [Z.eqb]. eapply IH; eassumption.
  - destruct (Z.eqb_spec (op x z) 0); lia.
  - destruct (Z.eqb_spec (op x z) 0); lia.
  - destruct (Z.eqb_spec (op x z) 0); lia.
Qed.

(** ** Span *)

Definition span_in (n : Z) (s : span) : Prop := 0 <= sp_data s /\ 0 <= sp_size s /\ sp_data s + sp_size s <= n.

(** The elements a span shows of the underlying array. *)
Definition span_view {A} (arr : list A) (s : span) : list A :=
  firstn (Z.to_nat (sp_size s)) (skipn (Z.to_nat (sp_data s)) arr).

Lemma ptr_at_in n p : 0 <= p <= n -> ptr_at n p = Ok p.
Proof. intro H. unfold ptr_at. rewrite (proj2 (Z.leb_le _ _)), (proj2 (Z.leb_le _ _)) by lia. reflexivity. Qed.

Lemma sp_first_ok {A} (arr : list A) s k : span_in (Z.of_nat (length arr)) s -> 0 <= k <= sp_size s ->
  exists s', sp_first s k = Ok s' /\ span_in (Z.of_nat (length arr)) s'
  /\ span_view arr s' = firstn (Z.to_nat k) (span_view arr s).
Proof.
  intros H Hk. unfold sp_first. rewrite (proj2 (Z.leb_le _ _)) by lia. cbn [assert_then].
  eexists. split; [reflexivity|]. unfold span_in, span_view in *. cbn [sp_data sp_size].
  split; [lia|]. rewrite firstn_firstn. f_equal. lia.
Qed.

Lemma sp_subspan_ok {A} (arr : list A) s o k : Z.of_nat (length arr) < 2 ^ 64 ->
  span_in (Z.of_nat (length arr)) s -> 0 <= o -> 0 <= k -> o + k <= sp_size s ->
  exists s', sp_subspan (Z.of_nat (length arr)) s o k = Ok s' /\ span_in (Z.of_nat (length arr)) s'
  /\ sp_size s' = k
  /\ span_view arr s' = firstn (Z.to_nat k) (skipn (Z.to_nat o) (span_view arr s)).
Proof.
  intros Ha H Ho Hk Hs. unfold sp_subspan, size_wrap. unfold span_in in H.
  rewrite Z.mod_small by lia. rewrite (proj2 (Z.leb_le _ _)) by lia. cbn [assert_then].
  rewrite ptr_at_in by lia. cbn [bind]. eexists. split; [reflexivity|].
  unfold span_in, span_view. cbn [sp_data sp_size]. split; [lia|]. split; [reflexivity|].
  rewrite skipn_firstn_comm, firstn_firstn.
  replace (Nat.min (Z.to_nat k) (Z.to_nat (sp_size s) - Z.to_nat o)) with (Z.to_nat k) by lia.
  f_equal. rewrite skipn_skipn_add. f_equal. lia.
Qed.

Lemma sp_last_ok {A} (arr : list A) s k :
  span_in (Z.of_nat (length arr)) s -> 0 <= k <= sp_size s ->
  exists s', sp_last (Z.of_nat (length arr)) s k = Ok s' /\ span_in (Z.of_nat (length arr)) s'
  /\ sp_size s' = k
  /\ span_view arr s' = skipn (Z.to_nat (sp_size s - k)) (span_view arr s).
Proof.
  intros H Hk. unfold sp_last. unfold span_in in H.
  rewrite (proj2 (Z.leb_le _ _)) by lia. cbn [assert_then].
  rewrite ptr_at_in by lia. cbn [bind]. eexists. split; [reflexivity|].
  unfold span_in, span_view. cbn [sp_data sp_size]. split; [lia|]. split; [reflexivity|].
  rewrite skipn_firstn_comm.
  replace (Z.to_nat (sp_size s) - Z.to_nat (sp_size s - k))%nat with (Z.to_nat k) by lia.
  f_equal. rewrite skipn_skipn_add. f_equal. lia.
Qed.

(** Requests that pass the assertions without wrapping are in bounds. *)
Lemma sp_rejects s k : sp_size s < k -> sp_first s k = AssertFail /\ forall n, sp_last n s k = AssertFail.
Proof.
  intro H. unfold sp_first, sp_last. rewrite (proj2 (Z.leb_gt _ _)) by lia. split; reflexivity.
Qed.

Lemma sp_subspan_rejects n s o k : 0 <= o -> 0 <= k -> sp_size s < o + k -> o + k < 2 ^ 64 ->
  sp_subspan n s o k = AssertFail.
Proof.
  intros Ho Hk H W. unfold sp_subspan, size_wrap. rewrite Z.mod_small by lia.
  rewrite (proj2 (Z.leb_gt _ _)) by lia. reflexivity.
Qed.

(** ** Copy *)
Lemma copy_to_ok {A} : forall (src t : list A) p, (p + length src <= length t)%nat ->
  copy_to t p src = Ok (firstn p t ++ src ++ skipn (p + length src) t, (p + length src)%nat).
Proof.
  induction src as [|x src IH]; intros t p H; cbn [copy_to length] in *.
  - rewrite Nat.add_0_r. cbn [app]. now rewrite firstn_skipn.
  - destruct (Nat.ltb_spec p (length t)) as [L|L]; [|lia].
    assert (Len : length (firstn p t ++ x :: skipn (S p) t) = length t).
    { rewrite app_length, firstn_length. cbn [length]. rewrite skipn_length. lia. }
    rewrite IH by lia. f_equal. f_equal; [|lia].
    assert (Lp : length (firstn p t) = p) by (rewrite firstn_length; lia).
    rewrite firstn_app, Lp. replace (S p - p)%nat with 1%nat by lia.
    rewrite firstn_all2 by lia. cbn [firstn]. rewrite <- app_assoc. cbn [app]. f_equal. f_equal. f_equal.
    rewrite skipn_app, Lp. rewrite skipn_all2 by lia. cbn [app].
    replace (S p + length src - p)%nat with (S (length src)) by lia.
    change (skipn (S (length src)) (x :: skipn (S p) t)) with (skipn (length src) (skipn (S p) t)).
    rewrite skipn_skipn_add. f_equal. lia.
Qed.

Lemma copy_range_ok {A} (t src : list A) : length t = length src -> copy_range t src = Ok src.
Proof.
  intro H. unfold copy_range. rewrite H, Nat.eqb_refl. cbn [assert_then].
  rewrite copy_to_ok by lia. cbn [bind fst firstn app Nat.add]. rewrite <- H, skipn_all. now rewrite app_nil_r.
Qed.
