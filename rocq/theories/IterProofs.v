(** Lemmas about IterModel. *)
From Coq Require Import ZArith List Bool Lia.
From Verif Require Import Outcome IntTypes IterModel.
Import ListNotations.
Local Open Scope Z_scope.

(** A type of C++: 8 to 64 bits. *)
Definition ctype (t : ity) : Prop := 8 <= bits t <= 64.
Lemma promote_ctype t : ctype t -> ctype (promote t) /\ 32 <= bits (promote t) /\ bits t <= bits (promote t).
Proof. unfold ctype, promote, int32. intros H. destruct (Z.ltb_spec (bits t) 32); cbn; lia. Qed.
Lemma promote_id t : 32 <= bits t -> promote t = t.
Proof. unfold promote. intros H. destruct (Z.ltb_spec (bits t) 32); [lia | reflexivity]. Qed.
Lemma pow_mono a b : 0 <= a <= b -> 2 ^ a <= 2 ^ b. Proof. intros. apply Z.pow_le_mono_r; lia. Qed.
Lemma promote_in t z : ctype t -> in_ity t z -> in_ity (promote t) z.
Proof.
  unfold ctype, promote. intros H I. destruct (Z.ltb_spec (bits t) 32); [|exact I].
  unfold in_ity, ilow, ihigh, int32 in *. cbn [bits sgn].
  pose proof (pow_mono (bits t) 31 ltac:(lia)). pose proof (pow_mono (bits t - 1) 31 ltac:(lia)). change (32 - 1) with 31.
  destruct (sgn t); lia.
Qed.
Lemma common_int t : 32 <= bits t -> common t int32 = t /\ common int32 t = t \/ sgn t = true /\ bits t = 32 /\ common t int32 = t /\ common int32 t = int32.
Proof.
  intros H. unfold common, int32. cbn [bits sgn]. destruct t as [w [|]]; cbn [bits sgn Bool.eqb] in *.
  - destruct (Z.ltb_spec w 32); [lia|]. destruct (Z.ltb_spec 32 w); [now left|]. right. repeat split; auto; lia.
  - destruct (Z.leb_spec 32 w); [now left | lia].
Qed.
Lemma common_int_r t : 32 <= bits t -> common t int32 = t. Proof. intros H. destruct (common_int t H) as [(A & _) | (_ & _ & A & _)]; exact A. Qed.
(** Either type is included in the common one, except negative numbers in unsigned. *)
Lemma common_cases a b : (bits a <= bits (common a b) /\ bits b <= bits (common a b)) /\
  (common a b = a \/ common a b = b) /\
  (sgn (common a b) = true -> (sgn a = true \/ bits a < bits (common a b)) /\ (sgn b = true \/ bits b < bits (common a b))).
Proof.
  unfold common. destruct a as [wa [|]], b as [wb [|]]; cbn [bits sgn Bool.eqb]; try destruct (Z.ltb_spec wa wb); try destruct (Z.leb_spec wa wb); try destruct (Z.leb_spec wb wa); cbn; repeat split; auto; try lia; try discriminate.
Qed.
Lemma in_signed a c z : 0 < bits a -> sgn c = true -> bits a <= bits c -> (sgn a = true \/ bits a < bits c) -> in_ity a z -> in_ity c z.
Proof.
  unfold in_ity, ilow, ihigh. intros P Sc L H I. rewrite Sc. destruct (sgn a).
  - pose proof (pow_mono (bits a - 1) (bits c - 1) ltac:(lia)). lia.
  - destruct H as [H | H]; [discriminate|]. pose proof (pow_mono (bits a) (bits c - 1) ltac:(lia)). lia.
Qed.
Lemma wrap_wrap_congr t c z : 0 < bits t -> bits t <= bits c -> wrap t (wrap c z) = wrap t z.
Proof.
  intros P L. apply wrap_congr; [exact P|].
  assert (D : forall a, (a mod 2 ^ bits c) mod 2 ^ bits t = a mod 2 ^ bits t).
  { intros a. replace (bits c) with (bits t + (bits c - bits t)) by lia. rewrite Z.pow_add_r by lia.
    rewrite Z.rem_mul_r by (try apply Z.pow_nonzero; try apply Z.pow_pos_nonneg; lia). rewrite Z.add_mod by (apply Z.pow_nonzero; lia).
    rewrite Z.mul_comm, Z.mod_mul by (apply Z.pow_nonzero; lia). rewrite Z.add_0_r. rewrite !Z.mod_mod by (apply Z.pow_nonzero; lia). reflexivity. }
  rewrite <- (D (wrap c z)), <- (D z), wrap_mod by lia. reflexivity.
Qed.
Lemma wrap_add_congr t a b : 0 < bits t -> wrap t (wrap t a + wrap t b) = wrap t (a + b).
Proof. intros P. apply wrap_congr; auto. rewrite Zplus_mod, !wrap_mod by lia. now rewrite <- Zplus_mod. Qed.
Lemma wrap_mul_congr t a b : 0 < bits t -> wrap t (wrap t a * wrap t b) = wrap t (a * b).
Proof. intros P. apply wrap_congr; auto. rewrite Zmult_mod, !wrap_mod by lia. now rewrite <- Zmult_mod. Qed.
Lemma wrap_opp_congr t a : 0 < bits t -> wrap t (- wrap t a) = wrap t (- a).
Proof.
  intros P. apply wrap_congr; auto. assert (N : 2 ^ bits t <> 0) by (apply Z.pow_nonzero; lia).
  rewrite <- (Z.sub_0_l (wrap t a)), <- (Z.sub_0_l a), Zminus_mod, wrap_mod by lia. now rewrite <- Zminus_mod.
Qed.

(** The sum, if the offset times the step is known up to the precision of the type. *)
Lemma sum_ok t v p e : ctype t -> in_ity t v -> in_ity t (v + e) -> 32 <= bits (tty p) <= 64 -> in_ity (tty p) (tz p) ->
  (tz p = e \/ sgn (tty p) = false /\ bits t <= bits (tty p) /\ tz p = wrap (tty p) e) ->
  exists s, tbin Z.add {| tty := t; tz := v |} p = Ok s /\ tconv t s = v + e.
Proof.
  intros Ct Iv Is Bp Ip H. unfold tbin. cbn [tty tz]. rewrite (promote_id (tty p)) by lia.
  destruct (promote_ctype t Ct) as (Cp & P32 & Pt). pose proof (promote_in t v Ct Iv) as Iv'. pose proof (promote_in t _ Ct Is) as Is'.
  set (T := promote t) in *. set (P := tty p) in *. destruct (common_cases T P) as ((B1 & B2) & Cc & Sc). set (C := common T P) in *.
  unfold ctype in *. assert (C0 : 0 < bits C) by lia.
  assert (E : wrap t (tz p) = wrap t e).
  { destruct H as [-> | (_ & L & ->)]; [reflexivity | apply wrap_wrap_congr; lia]. }
  unfold tconv. cbn [tz].
  destruct (sgn C) eqn:SC.
  - destruct (Sc eq_refl) as (S1 & S2). assert (V : in_ity C v) by (apply (in_signed T); auto; lia). assert (Q : in_ity C (tz p)) by (apply (in_signed P); auto; lia).
    rewrite !wrap_id by auto. assert (Ep : tz p = e).
    { destruct H as [H | (S3 & L & _)]; [exact H|]. exfalso. destruct S2 as [S2 | S2]; [congruence|]. destruct Cc as [Cc | Cc]; rewrite Cc in *; [|congruence].
      (* C = T has more bits than P, which has at least those of t *) unfold T, promote in *. destruct (Z.ltb_spec (bits t) 32); cbn in *; lia. }
    rewrite Ep. assert (W : in_ity C (v + e)) by (apply (in_signed T); auto; lia). rewrite iarith_in by exact W. cbn [bind]. eexists. split; [reflexivity|]. cbn [tz].
    apply wrap_id; [lia | exact Is].
  - rewrite iarith_unsigned by (auto; lia). cbn [bind]. eexists. split; [reflexivity|]. cbn [tz].
    rewrite wrap_add_congr, wrap_wrap_congr by lia. rewrite <- (wrap_add_congr t v (tz p)), E, wrap_add_congr by lia. apply wrap_id; [lia | exact Is].
Qed.
(** The product in the type of the offset. *)
Lemma prod_ok o n s e : ctype o -> in_ity o n -> in_ity int32 s -> e = n * s ->
  in_ity (promote o) e \/ sgn (promote o) = false ->
  exists p, tbin Z.mul {| tty := o; tz := n |} (tint s) = Ok p /\ tty p = promote o /\ in_ity (promote o) (tz p) /\
    (in_ity (promote o) e -> tz p = e) /\ (sgn (promote o) = false -> tz p = wrap (promote o) e).
Proof.
  intros Co In Is -> H. unfold tbin. cbn [tty tz tint]. change (promote int32) with int32.
  destruct (promote_ctype o Co) as (Cp & P32 & _). pose proof (promote_in o n Co In) as In'. rewrite common_int_r by exact P32. set (P := promote o) in *.
  unfold tconv. cbn [tz]. unfold ctype in *. assert (P0 : 0 < bits P) by lia. destruct (sgn P) eqn:SP.
  - destruct H as [H | H]; [|discriminate]. rewrite !wrap_id; auto; [|apply (in_signed int32); auto; cbn; lia].
    rewrite iarith_in by exact H. cbn [bind]. eexists. split; [reflexivity|]. cbn. repeat split; auto; apply H.
  - rewrite iarith_unsigned by auto. cbn [bind]. eexists. split; [reflexivity|]. cbn [tty tz]. rewrite wrap_mul_congr by lia.
    split; [reflexivity|]. split; [now apply wrap_in|]. split; [intros; now apply wrap_id | reflexivity].
Qed.
(** Moving by [n] steps. *)
Definition offset_fits (t o : ity) (e : Z) : Prop := in_ity (promote o) e \/ sgn (promote o) = false /\ bits t <= bits (promote o).
Lemma n_add_ok t v s o n : ctype t -> ctype o -> in_ity t v -> in_ity o n -> in_ity int32 s ->
  in_ity t (v + n * s) -> offset_fits t o (n * s) ->
  n_add {| n_ty := t; n_val := v; n_step := s |} {| tty := o; tz := n |} = Ok {| n_ty := t; n_val := v + n * s; n_step := s |}.
Proof.
  intros Ct Co Iv In Is Iw H. unfold n_add, n_get. cbn [n_step n_ty n_val].
  destruct (prod_ok o n s (n * s) Co In Is eq_refl) as (p & E & Tp & Ip & E1 & E2); [unfold offset_fits in H; tauto|].
  rewrite E. cbn [bind]. destruct (promote_ctype o Co) as (Cp & P32 & _).
  destruct (sum_ok t v p (n * s) Ct Iv Iw) as (x & Ex & Vx); rewrite ?Tp; auto.
  - split; [exact P32 | apply Cp].
  - destruct H as [H | (S0 & L)]; [left; now apply E1 | right; auto].
  - rewrite Ex. cbn [bind]. rewrite Vx. reflexivity.
Qed.
Lemma tneg_ok o n : ctype o -> in_ity o n -> in_ity (promote o) (- n) \/ sgn (promote o) = false ->
  tneg {| tty := o; tz := n |} = Ok {| tty := promote o; tz := wrap (promote o) (- n) |}.
Proof.
  intros Co In H. unfold tneg, tconv. cbn [tty tz]. destruct (promote_ctype o Co) as (Cp & P32 & _). unfold ctype in *.
  rewrite (wrap_id _ n) by (try lia; now apply promote_in). destruct H as [H | H].
  - rewrite iarith_in by exact H. cbn [bind]. now rewrite wrap_id by (try lia; auto).
  - rewrite iarith_unsigned by (auto; lia). reflexivity.
Qed.
Lemma n_sub_ok t v s o n : ctype t -> ctype o -> in_ity t v -> in_ity o n -> in_ity int32 s ->
  in_ity t (v - n * s) -> offset_fits t o (- n) -> offset_fits t o (- n * s) ->
  n_sub {| n_ty := t; n_val := v; n_step := s |} {| tty := o; tz := n |} = Ok {| n_ty := t; n_val := v - n * s; n_step := s |}.
Proof.
  intros Ct Co Iv In Is Iw H1 H2. unfold n_sub. rewrite tneg_ok by (auto; unfold offset_fits in H1; tauto). cbn [bind].
  destruct (promote_ctype o Co) as (Cp & P32 & _). assert (Pp : promote (promote o) = promote o) by now apply promote_id.
  assert (P0 : 0 < bits (promote o)) by lia.
  unfold n_add, n_get. cbn [n_step n_ty n_val].
  set (m := wrap (promote o) (- n)). assert (Im : in_ity (promote o) m) by now apply wrap_in.
  assert (Fit : in_ity (promote o) (m * s) \/ sgn (promote o) = false).
  { destruct (sgn (promote o)) eqn:Sg; [left | now right]. destruct H1 as [H1 | (H1 & _)]; [|congruence]. destruct H2 as [H2 | (H2 & _)]; [|congruence].
    unfold m. now rewrite wrap_id. }
  assert (Cq : ctype (promote o)) by exact Cp.
  destruct (prod_ok (promote o) m s (m * s) Cq Im Is eq_refl) as (p & E & Tp & Ip & E1 & E2); rewrite Pp in *; auto.
  rewrite E. cbn [bind].
  destruct (sum_ok t v p (- n * s) Ct Iv) as (x & Ex & Vx); rewrite ?Tp; auto.
  - now replace (v + - n * s) with (v - n * s) by lia.
  - split; [exact P32 | apply Cp].
  - destruct (sgn (promote o)) eqn:Sg.
    + left. destruct H1 as [H1 | (H1 & _)]; [|congruence]. assert (Em : m = - n) by now apply wrap_id. rewrite Em in *.
      destruct H2 as [H2 | (H2 & _)]; [|congruence]. now apply E1.
    + assert (Ew : tz p = wrap (promote o) (- n * s)).
      { rewrite (E2 eq_refl). unfold m. rewrite <- (wrap_mul_congr _ (wrap (promote o) (- n)) s) by lia. rewrite (wrap_id _ (wrap _ (- n))) by (auto; lia). now rewrite wrap_mul_congr by lia. }
      destruct H2 as [H2 | (_ & L)]; [left; rewrite Ew; now apply wrap_id | right; auto].
  - rewrite Ex. cbn [bind]. rewrite Vx. do 2 f_equal. lia.
Qed.
(** Differences in a signed type. *)
Lemma n_diff_ok t v s m n : ctype t -> sgn (promote t) = true -> in_ity int32 s -> s <> 0 ->
  in_ity t (v + m * s) -> in_ity t (v + n * s) -> in_ity (promote t) ((m - n) * s) -> in_ity (promote t) (m - n) ->
  n_diff {| n_ty := t; n_val := v + m * s; n_step := s |} {| n_ty := t; n_val := v + n * s; n_step := s |}
  = Ok {| tty := promote t; tz := m - n |}.
Proof.
  intros Ct Sg Is S0 Im In Id Iq. unfold n_diff. cbn [n_step]. rewrite Z.eqb_refl. unfold assert_then at 1.
  destruct (promote_ctype t Ct) as (Cp & P32 & _). unfold n_get. cbn [n_ty n_val].
  pose proof (promote_in t _ Ct Im) as Im'. pose proof (promote_in t _ Ct In) as In'. set (T := promote t) in *. unfold ctype in *. assert (T0 : 0 < bits T) by lia.
  assert (Ctt : common T T = T) by (unfold common; rewrite Bool.eqb_reflx, Z.ltb_irrefl; reflexivity).
  assert (D : tbin Z.sub {| tty := t; tz := v + m * s |} {| tty := t; tz := v + n * s |} = Ok {| tty := T; tz := (m - n) * s |}).
  { unfold tbin, tconv. cbn [tty tz]. fold T. rewrite Ctt. rewrite !wrap_id by auto. replace (v + m * s - (v + n * s)) with ((m - n) * s) by lia.
    rewrite iarith_in by exact Id. reflexivity. }
  rewrite D. cbn [bind]. assert (Pt : promote T = T) by now apply promote_id.
  assert (Is' : in_ity T s) by (apply (in_signed int32); auto; cbn; lia).
  assert (Q : forall op r, op ((m - n) * s) s = r -> in_ity T r -> tdiv op {| tty := T; tz := (m - n) * s |} (tint s) = Ok {| tty := T; tz := r |}).
  { intros op r Er Ir. unfold tdiv, tbin, tconv. cbn [tty tz tint]. change (promote int32) with int32. rewrite Pt, common_int_r by exact P32. rewrite !wrap_id by auto.
    destruct (Z.eqb_spec s 0); [lia|]. rewrite Er, iarith_in by exact Ir. reflexivity. }
  rewrite (Q Z.rem 0); [|now apply Z.rem_mul |]. 2: { unfold in_ity, ilow, ihigh. rewrite Sg. pose proof (Z.pow_pos_nonneg 2 (bits T - 1) ltac:(lia) ltac:(lia)). lia. }
  cbn [bind tz]. rewrite Z.eqb_refl. unfold assert_then. rewrite (Q Z.quot (m - n)); auto. now apply Z.quot_mul.
Qed.
Lemma n_diff_unsigned t v w : 32 <= bits t <= 64 -> sgn t = false -> in_ity t v -> in_ity t w ->
  n_diff {| n_ty := t; n_val := v; n_step := 1 |} {| n_ty := t; n_val := w; n_step := 1 |} = Ok {| tty := t; tz := wrap t (v - w) |}.
Proof.
  intros Ct Sg Iv Iw. unfold n_diff. cbn [n_step]. rewrite Z.eqb_refl. unfold assert_then at 1. unfold n_get. cbn [n_ty n_val].
  assert (Pt : promote t = t) by now apply promote_id. assert (T0 : 0 < bits t) by lia.
  assert (Ctt : common t t = t) by (unfold common; rewrite Bool.eqb_reflx, Z.ltb_irrefl; reflexivity).
  assert (D : tbin Z.sub {| tty := t; tz := v |} {| tty := t; tz := w |} = Ok {| tty := t; tz := wrap t (v - w) |}).
  { unfold tbin, tconv. cbn [tty tz]. rewrite Pt, Ctt. rewrite !wrap_id by auto. now rewrite iarith_unsigned by auto. }
  rewrite D. cbn [bind].
  assert (I1 : in_ity t 1). { unfold in_ity, ilow, ihigh. rewrite Sg. pose proof (pow_mono 32 (bits t) ltac:(lia)). lia. }
  assert (I0 : in_ity t 0) by (unfold in_ity, ilow, ihigh in *; rewrite Sg in *; lia).
  pose proof (wrap_in t (v - w) T0) as Ix. set (x := wrap t (v - w)) in *.
  assert (Q : forall op r, op x 1 = r -> in_ity t r -> tdiv op {| tty := t; tz := x |} (tint 1) = Ok {| tty := t; tz := r |}).
  { intros op r Er Ir. unfold tdiv, tbin, tconv. cbn [tty tz tint]. change (promote int32) with int32. rewrite Pt, common_int_r by lia. rewrite !wrap_id by auto.
    cbn [Z.eqb]. rewrite Er, iarith_in by exact Ir. reflexivity. }
  rewrite (Q Z.rem 0); [|apply Z.rem_1_r | exact I0]. cbn [bind tz]. rewrite Z.eqb_refl. unfold assert_then. rewrite (Q Z.quot x); auto. apply Z.quot_1_r.
Qed.

(** ** Indices *)
Lemma nonneg_in a c z : 0 < bits a -> 0 <= z -> in_ity a z -> bits a <= bits c -> (sgn c = true -> sgn a = true \/ bits a < bits c) -> in_ity c z.
Proof.
  intros P Z0 I L H. destruct (sgn c) eqn:Sc; [apply (in_signed a c z P Sc L); auto|].
  unfold in_ity, ilow, ihigh in *. rewrite Sc. pose proof (pow_mono (bits a) (bits c) ltac:(lia)). pose proof (pow_mono (bits a - 1) (bits c) ltac:(lia)). destruct (sgn a); lia.
Qed.
Lemma tcmp_nonneg op x y : ctype (tty x) -> ctype (tty y) -> 0 <= tz x -> 0 <= tz y -> in_ity (tty x) (tz x) -> in_ity (tty y) (tz y) ->
  tcmp op x y = op (tz x) (tz y).
Proof.
  intros Cx Cy X Y Ix Iy. unfold tcmp, tconv.
  destruct (promote_ctype _ Cx) as (Px & Px32 & _), (promote_ctype _ Cy) as (Py & Py32 & _).
  pose proof (promote_in _ _ Cx Ix). pose proof (promote_in _ _ Cy Iy).
  destruct (common_cases (promote (tty x)) (promote (tty y))) as ((B1 & B2) & _ & Sc). set (C := common _ _) in *.
  rewrite !wrap_id; auto; try lia.
  - apply (nonneg_in (promote (tty y))); auto; try lia. intros S. apply (Sc S).
  - apply (nonneg_in (promote (tty x))); auto; try lia. intros S. apply (Sc S).
Qed.
Lemma tcmp_sign i : ctype (tty i) -> in_ity (tty i) (tz i) -> tcmp Z.leb (tint 0) i = (0 <=? tz i).
Proof.
  intros Ci Ii. destruct (Z.leb_spec 0 (tz i)) as [L | L].
  - rewrite tcmp_nonneg; auto; [now apply Z.leb_le | unfold ctype; cbn; lia | cbn; lia | unfold in_ity; cbn; lia].
  - destruct (promote_ctype _ Ci) as (Pi & Pi32 & _). pose proof (promote_in _ _ Ci Ii) as Ip.
    assert (Sg : sgn (promote (tty i)) = true).
    { destruct (sgn (promote (tty i))) eqn:E; [reflexivity|]. unfold in_ity, ilow, ihigh in Ip. rewrite E in Ip. lia. }
    unfold tcmp, tconv. cbn [tty tz tint]. change (promote int32) with int32. set (P := promote (tty i)) in *.
    destruct (common_cases int32 P) as ((B1 & B2) & Cc & _). assert (Sc : sgn (common int32 P) = true) by (destruct Cc as [-> | ->]; auto).
    unfold ctype in *.
    assert (I1 : in_ity (common int32 P) (tz i)) by (apply (in_signed P); auto; lia).
    assert (I2 : in_ity (common int32 P) 0).
    { unfold in_ity, ilow, ihigh. rewrite Sc. pose proof (Z.pow_pos_nonneg 2 (bits (common int32 P) - 1) ltac:(lia) ltac:(cbn in B1; lia)). lia. }
    rewrite !wrap_id by (auto; lia). now apply Z.leb_gt.
Qed.
Lemma r_at_ok t v s k o i : ctype t -> sgn (promote t) = true -> in_ity int32 s -> s <> 0 -> 0 <= k ->
  in_ity t v -> in_ity t (v + k * s) -> in_ity (promote t) (k * s) -> in_ity (promote t) k -> ctype o -> in_ity o i ->
  let b := {| n_ty := t; n_val := v; n_step := s |} in let e := {| n_ty := t; n_val := v + k * s; n_step := s |} in
  (0 <= i < k -> offset_fits t o (i * s) -> r_at b e {| tty := o; tz := i |} = Ok (v + i * s)) /\
  (~ 0 <= i < k -> r_at b e {| tty := o; tz := i |} = AssertFail).
Proof.
  intros Ct Sg Is S0 K0 Iv Ik Iks Ikk Co Ii b e. unfold r_at. rewrite tcmp_sign by auto. cbn [tz].
  destruct (promote_ctype t Ct) as (Cp & P32 & _).
  assert (Sz : r_size b e = Ok {| tty := {| bits := bits (promote t); sgn := false |}; tz := k |}).
  { unfold r_size, e, b. pose proof (n_diff_ok t v s k 0 Ct Sg Is S0 Ik) as D. rewrite Z.mul_0_l, Z.add_0_r, Z.sub_0_r in D. rewrite D by auto. cbn [bind tty tz]. do 2 f_equal.
    unfold tconv. cbn [tz]. apply wrap_id; [cbn; lia|]. unfold in_ity, ilow, ihigh in *. rewrite Sg in Ikk. cbn [bits sgn].
    pose proof (pow_mono (bits (promote t) - 1) (bits (promote t)) ltac:(lia)). lia. }
  assert (Cm : 0 <= i -> tcmp Z.ltb {| tty := o; tz := i |} {| tty := {| bits := bits (promote t); sgn := false |}; tz := k |} = (i <? k)).
  { intros I0. rewrite tcmp_nonneg; auto. unfold in_ity, ilow, ihigh in *. rewrite Sg in Ikk. cbn [tty tz bits sgn].
    pose proof (pow_mono (bits (promote t) - 1) (bits (promote t)) ltac:(lia)). lia. }
  split.
  - intros Hi Hf. destruct (Z.leb_spec 0 i); [|lia]. rewrite Sz. cbn [bind]. rewrite Cm by lia. destruct (Z.ltb_spec i k); [|lia]. unfold assert_then, n_at, b.
    rewrite n_add_ok; auto. unfold in_ity in *. destruct (Z.lt_ge_cases 0 s); nia.
  - intros Hi. destruct (Z.leb_spec 0 i); [|reflexivity]. rewrite Sz. cbn [bind]. rewrite Cm by lia. destruct (Z.ltb_spec i k); [lia|]. reflexivity.
Qed.

(** ** Linked lists *)
Section Chain.
  Context {V : Type}.
  (** The cells from [first] to [last]: addresses and values. *)
  Fixpoint chain (h : heap (V := V)) (first : option nat) (cells : list (nat * V)) (last : option nat) : Prop :=
    match cells with
    | [] => first = last
    | (a, v) :: cells => first = Some a /\ exists d, h a = Some d /\ d_value d = v /\ chain h (d_next d) cells last
    end.
  Lemma chain_walk h cells : forall first last fuel, chain h first cells last -> (length cells <= fuel)%nat ->
    (forall a, last = Some a -> ~ In a (map fst cells)) -> l_walk h fuel first last = Ok (map snd cells).
  Proof.
    induction cells as [|(a, v) cells IH]; intros first last fuel C L N.
    - cbn in C. subst. assert (E : l_eq last last = true) by (destruct last; cbn; [apply Nat.eqb_refl | reflexivity]). destruct fuel; cbn; now rewrite E.
    - destruct C as (-> & d & Hd & Ev & C). destruct fuel as [|fuel]; [cbn in L; lia|]. cbn [l_walk].
      assert (E : l_eq (Some a) last = false). { destruct last as [b|]; cbn; [|reflexivity]. apply Nat.eqb_neq. intros ->. apply (N b eq_refl). now left. }
      rewrite E. cbn [l_get l_next]. rewrite Hd. cbn [bind]. cbn in L. rewrite (IH (d_next d) last fuel); auto; [|lia|].
      + cbn [bind map snd]. now rewrite Ev.
      + intros b Eb Hb. apply (N b Eb). now right.
  Qed.
End Chain.
