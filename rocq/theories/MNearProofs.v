(** Proofs about distances that are rounded: the closest pair and the largest distance with respect to
    the numbers of type double that the code compares (MDistModel.v), for all squares that fit. *)
From Coq Require Import ZArith QArith Qround Qpower List Bool Lia Lqa Permutation Sorted.
From Verif Require Import Outcome IntTypes GeoModel HullProofs PolyModel NearestProofs MGeoModel MGeoProofs MDistModel MDistProofs FGeoModel.
From Verif Require FGeoProofs.
Import FGeoProofs.
Import ListNotations.
Local Open Scope Z_scope.

(** ** Conversion to double *)
Lemma dround_spec n : 0 <= n -> (round double (inject_Z n) == inject_Z (dround n))%Q.
Proof.
  intros N. destruct (Z.eq_dec n 0) as [->|N0].
  { unfold round. cbn. reflexivity. }
  assert (P : (0 < inject_Z n)%Q) by (change 0%Q with (inject_Z 0); rewrite <- Zlt_Qlt; lia).
  rewrite round_pos_Q by exact P. pose proof (Z.log2_spec n ltac:(lia)) as [L U]. pose proof (Z.log2_nonneg n) as L0.
  assert (M : magnitude (inject_Z n) = Z.log2 n + 1).
  { pose proof (magnitude_spec _ P) as [A B]. set (m := magnitude (inject_Z n)) in *.
    assert (A' : (2 ^ (m - 1) < 2 ^ (Z.log2 n + 1))%Q).
    { eapply Qle_lt_trans; [exact A|]. rewrite <- (two_Z (Z.log2 n + 1)) by lia. rewrite <- Zlt_Qlt. unfold Z.succ in U. exact U. }
    assert (B' : (2 ^ Z.log2 n < 2 ^ m)%Q).
    { eapply Qle_lt_trans; [|exact B]. rewrite <- (two_Z (Z.log2 n)) by lia. rewrite <- Zle_Qle. exact L. }
    apply two_lt_inv in A', B'. lia. }
  unfold round_pos, last_bit. rewrite M. cbn [prec emin double]. unfold dround. cbv zeta.
  destruct (Z.leb_spec (Z.log2 n - 52) 0) as [E|E].
  - transitivity (round double (inject_Z n)).
    + rewrite round_pos_Q by exact P. unfold round_pos, last_bit. rewrite M. reflexivity.
    + apply (round_exact double ltac:(cbn; lia) (inject_Z n)). exists n, 0. repeat split; [change (2 ^ 0)%Q with 1%Q; ring| |cbn; lia].
      rewrite Z.abs_eq by lia. cbn [prec double]. eapply Z.lt_le_trans; [exact U|]. apply Z.pow_le_mono_r; lia.
  - replace (Z.max (-1074) (Z.log2 n + 1 - 53)) with (Z.log2 n - 52) by lia. set (e := Z.log2 n - 52) in *.
    assert (Pe : 0 < 2 ^ e) by (apply Z.pow_pos_nonneg; lia).
    rewrite inject_Z_mult, (two_Z e) by lia. apply Qmult_comp; [|reflexivity].
    assert (Eq : (inject_Z n / 2 ^ e == inject_Z (n / 2 ^ e) + inject_Z (n mod 2 ^ e) / inject_Z (2 ^ e))%Q).
    { rewrite (Z.div_mod n (2 ^ e)) at 1 by lia. rewrite inject_Z_plus, inject_Z_mult, (two_Z e) by lia. field. apply two_nz. }
    pose proof (Z.mod_pos_bound n (2 ^ e) Pe) as Mb. set (q := n / 2 ^ e) in *. set (r := n mod 2 ^ e) in *.
    assert (R : (inject_Z r / inject_Z (2 ^ e) * inject_Z (2 ^ e) == inject_Z r)%Q).
    { field. rewrite (two_Z e) by lia. apply two_nz. }
    set (fr := (inject_Z r / inject_Z (2 ^ e))%Q) in *. set (w := 2 ^ e) in *.
    assert (W : (0 < inject_Z w)%Q) by (change 0%Q with (inject_Z 0); rewrite <- Zlt_Qlt; lia).
    assert (R1 : (0 <= inject_Z r)%Q) by (change 0%Q with (inject_Z 0); rewrite <- Zle_Qle; lia).
    assert (R2 : (inject_Z r < inject_Z w)%Q) by (rewrite <- Zlt_Qlt; lia).
    assert (F1 : (0 <= fr)%Q) by (unfold fr; apply Qle_shift_div_l; [exact W | lra]).
    assert (F2 : (fr < 1)%Q) by (unfold fr; apply Qlt_shift_div_r; [exact W | lra]).
    assert (Fl : Qfloor (inject_Z n / 2 ^ e) = q).
    { rewrite Eq. destruct (floor_bounds (inject_Z q + fr)) as [A B]. set (k := Qfloor (inject_Z q + fr)) in *.
      assert (inject_Z k < inject_Z (q + 1))%Q by (rewrite inject_Z_plus; change (inject_Z 1) with 1%Q; lra).
      assert (inject_Z q < inject_Z (k + 1))%Q by (rewrite inject_Z_plus; change (inject_Z 1) with 1%Q; lra).
      rewrite <- Zlt_Qlt in *. lia. }
    unfold nearest. rewrite Fl.
    assert (D : (inject_Z n / 2 ^ e - inject_Z q == fr)%Q) by (rewrite Eq; ring).
    rewrite (Qcompare_comp _ _ D _ _ (Qeq_refl (1 # 2))).
    destruct (Qcompare_spec fr (1 # 2)) as [C|C|C].
    + assert (T : 2 * r = w). { apply inject_Z_injective. rewrite inject_Z_mult, <- R, C. change (inject_Z 2) with 2%Q. ring. }
      destruct (Z.ltb_spec (2 * r) w); [lia|]. destruct (Z.eqb_spec (2 * r) w); [|lia]. cbn [orb andb]. reflexivity.
    + assert (T : 2 * r < w).
      { rewrite Zlt_Qlt, inject_Z_mult, <- R. change (inject_Z 2) with 2%Q.
        assert (fr * inject_Z w < (1 # 2) * inject_Z w)%Q by (apply Qmult_lt_compat_r; assumption). lra. }
      destruct (Z.ltb_spec (2 * r) w); [|lia]. reflexivity.
    + assert (T : w < 2 * r).
      { rewrite Zlt_Qlt, inject_Z_mult, <- R. change (inject_Z 2) with 2%Q.
        assert ((1 # 2) * inject_Z w < fr * inject_Z w)%Q by (apply Qmult_lt_compat_r; assumption). lra. }
      destruct (Z.ltb_spec (2 * r) w); [lia|]. destruct (Z.eqb_spec (2 * r) w); [lia|]. reflexivity.
Qed.
Lemma dround_nn n : 0 <= n -> 0 <= dround n.
Proof.
  intro N. unfold dround. set (e := Z.log2 n - 52). destruct (Z.leb_spec e 0); [exact N|].
  assert (0 < 2 ^ e) by (apply Z.pow_pos_nonneg; lia). assert (0 <= n / 2 ^ e) by (apply Z.div_pos; lia).
  apply Z.mul_nonneg_nonneg; [|lia]. destruct (_ || _); lia.
Qed.
Lemma dround_le a b : 0 <= a <= b -> dround a <= dround b.
Proof.
  intro H. rewrite Zle_Qle, <- !dround_spec by lia. apply round_mono; [cbn; lia|]. rewrite <- Zle_Qle. lia.
Qed.
(** The error is at most half of the unit 2^(k - 52), where 2^k <= n. *)
Lemma dround_err n : 0 < n -> exists k, 0 <= k /\ 2 ^ k <= n < 2 ^ (k + 1) /\ 2 ^ 53 * Z.abs (dround n - n) <= 2 ^ k.
Proof.
  intro N. exists (Z.log2 n). pose proof (Z.log2_spec n N) as [L U]. pose proof (Z.log2_nonneg n) as L0.
  split; [exact L0|]. split; [exact (conj L U)|]. unfold dround. set (e := Z.log2 n - 52).
  destruct (Z.leb_spec e 0) as [E|E].
  - replace (n - n) with 0 by lia. change (Z.abs 0) with 0. pose proof (Z.pow_nonneg 2 (Z.log2 n)). lia.
  - assert (P : 0 < 2 ^ e) by (apply Z.pow_pos_nonneg; lia).
    assert (X : 2 ^ Z.log2 n = 2 ^ 52 * 2 ^ e) by (rewrite <- Z.pow_add_r by lia; f_equal; unfold e; lia).
    pose proof (Z.div_mod n (2 ^ e) ltac:(lia)) as D. pose proof (Z.mod_pos_bound n (2 ^ e) P) as M.
    set (q := n / 2 ^ e) in *. set (r := n mod 2 ^ e) in *. set (w := 2 ^ e) in *. rewrite X. clearbody q r w. clear - D M.
    assert (2 * Z.abs ((if (2 * r <? w) || (2 * r =? w) && Z.even q then q else q + 1) * w - n) <= w); [|change (2 ^ 53) with (2 ^ 52 * 2); lia].
    subst n. destruct (Z.ltb_spec (2 * r) w); cbn [orb].
    + replace (q * w - (w * q + r)) with (- r) by ring. lia.
    + destruct (Z.eqb_spec (2 * r) w); cbn [andb].
      * destruct (Z.even q); [replace (q * w - (w * q + r)) with (- r) by ring|replace ((q + 1) * w - (w * q + r)) with (w - r) by ring]; lia.
      * replace ((q + 1) * w - (w * q + r)) with (w - r) by ring. lia.
Qed.
Lemma dround_pow k : 0 <= k -> dround (2 ^ k) = 2 ^ k.
Proof.
  intro K. unfold dround. rewrite Z.log2_pow2 by exact K. destruct (Z.leb_spec (k - 52) 0) as [E|E]; [reflexivity|].
  assert (X : 2 ^ k = 2 ^ 52 * 2 ^ (k - 52)) by (rewrite <- Z.pow_add_r by lia; f_equal; lia).
  assert (P : 0 < 2 ^ (k - 52)) by (apply Z.pow_pos_nonneg; lia).
  rewrite X at 1 2. rewrite Z.mod_mul by lia. destruct (Z.ltb_spec (2 * 0) (2 ^ (k - 52))); [|lia]. cbn [orb].
  rewrite X, Z.div_mul by lia. reflexivity.
Qed.

(** ** Rounded distances *)
Definition lim : Z := 2 ^ 105.
(** The distance computed for a squared distance *)
Definition dmetric (d : Z) : Z := dsqrt (dround d).
Lemma dround_lim d : 0 <= d <= lim -> 0 <= dround d <= lim.
Proof.
  intro H. split; [apply dround_nn; lia|]. assert (E : dround lim = lim) by (apply dround_pow; lia). rewrite <- E. apply dround_le. exact H.
Qed.
Lemma lim_106 : lim < 2 ^ 106. Proof. reflexivity. Qed.
Lemma dmetric_le a b : 0 <= a <= b -> b <= lim -> dmetric a <= dmetric b.
Proof.
  intros A B. unfold dmetric. pose proof (dround_lim b ltac:(lia)). pose proof lim_106.
  apply dsqrt_le; [|lia]. split; [apply dround_nn; lia|apply dround_le; lia].
Qed.
Lemma dmetric_nn a : 0 <= a <= lim -> 0 <= dmetric a.
Proof. intro A. apply dsqrt_nn. pose proof (dround_lim a A). pose proof lim_106. lia. Qed.
(** A coordinate difference is not larger than the rounded distance. *)
Lemma dint_square x : 0 <= x -> x * x <= lim -> dint x <= dmetric (x * x).
Proof.
  intros X XL. assert (X53 : x < 2 ^ 53).
  { unfold lim in XL. change (2 ^ 105) with 40564819207303340847894502572032 in XL. change (2 ^ 53) with 9007199254740992. nia. }
  unfold dint. destruct (Z.ltb_spec x 0); [lia|]. rewrite dround_small by lia. unfold dmetric.
  destruct (Z.eq_dec x 0) as [->|N]; [reflexivity|].
  destruct (Z.eq_dec (dround (x * x)) (x * x)) as [E|NE]; [rewrite E, dsqrt_square by lia; lia|].
  destruct (dround_err (x * x) ltac:(nia)) as (k & K & [L U] & Er). set (d := dround (x * x)) in *.
  assert (L' : 2 ^ k < x * x).
  { destruct (Z.eq_dec (2 ^ k) (x * x)) as [Q|Q]; [|lia]. exfalso. apply NE. unfold d. rewrite <- Q. now apply dround_pow. }
  assert (D0 : 0 < d) by lia. pose proof lim_106.
  assert (DL : d <= lim) by (apply dround_lim; nia).
  destruct (sqrt_spec d ltac:(lia)) as (h & m & Rh & [Dl Du] & -> & Rm & M1 & M2).
  destruct (Z_le_gt_dec (x * 2 ^ 52) (m * 2 ^ h)) as [|G]; [assumption|exfalso].
  assert (Ph : 0 < 2 ^ h) by (apply Z.pow_pos_nonneg; lia).
  set (g := 2 ^ (52 - h)). assert (Pg : 0 < g) by (apply Z.pow_pos_nonneg; lia).
  assert (E52 : 2 ^ 52 = g * 2 ^ h) by (unfold g; rewrite <- Z.pow_add_r by lia; f_equal; lia).
  assert (E4 : 4 ^ (52 - h) = g * g) by (change 4 with (2 * 2); apply Z.pow_mul_l).
  rewrite E4 in M1, M2. set (y := x * g).
  assert (GY : m + 1 <= y) by (rewrite E52 in G; unfold y; nia).
  assert (DU : d * (g * g) < 2 ^ 53 * 2 ^ 53).
  { rewrite <- E4. apply Z.lt_le_trans with (4 ^ (h + 1) * 4 ^ (52 - h)); [apply Z.mul_lt_mono_pos_r; [apply Z.pow_pos_nonneg; lia|exact Du]|].
    rewrite <- Z.pow_add_r by lia. replace (h + 1 + (52 - h)) with 53 by lia. reflexivity. }
  assert (S : 2 ^ 53 * (y * y - d * (g * g)) < y * y).
  { replace (y * y - d * (g * g)) with ((x * x - d) * (g * g)) by (unfold y; ring).
    replace (y * y) with ((x * x) * (g * g)) by (unfold y; ring). rewrite Z.mul_assoc. apply Z.mul_lt_mono_pos_r; [nia|]. lia. }
  assert (M3 : d * (g * g) <= (y - 1) * y) by (etransitivity; [exact M2|]; apply Z.mul_le_mono_nonneg; lia).
  clearbody y g d. clear - S M3 DU GY Rm. change (2 ^ 53) with 9007199254740992 in *. change (2 ^ 52) with 4503599627370496 in *.
  assert (9007199254740992 < y) by nia. nia.
Qed.
Lemma dint_le x d : 0 <= x -> x * x <= d -> d <= lim -> dint x <= dmetric d.
Proof.
  intros X D L. etransitivity; [apply dint_square; lia|]. apply dmetric_le; [pose proof (Z.square_nonneg x); lia|exact L].
Qed.

(** ** Points in a box *)
Section Near.
  Variable t : ity.
  Variables x0 y0 W H : Z.
  Hypothesis HS : IntTypes.sgn t = true.
  Hypothesis HA : W * W + H * H <= top t.
  Hypothesis HL : W * W + H * H <= lim.
  Notation box := (in_box x0 y0 W H).
  Definition md (p q : pt) : Z := dmetric (dist2 p q).
  Lemma md_sym p q : md p q = md q p. Proof. unfold md. now rewrite dist2_sym. Qed.
  Lemma d2_le p q : box p -> box q -> 0 <= dist2 p q <= lim.
  Proof. intros A B. pose proof (dist2_le x0 y0 W H p q A B). lia. Qed.
  Lemma mdistance_ok p q : box p -> box q -> mdistance t p q = Ok (md p q).
  Proof.
    intros A B. unfold mdistance. rewrite (psub_box t x0 y0 W H) by assumption. cbn [bind].
    rewrite (dot_box t x0 y0 W H) by assumption. reflexivity.
  Qed.
  Lemma small z A : Z.abs z <= A -> A * A <= W * W + H * H -> iarith (promote t) z = Ok z.
  Proof. intros B C. apply (small_ok t W H); [exact HS|exact HA|]. pose proof (Z.abs_nonneg z). nia. Qed.
  (** A difference of coordinates is at most the distance. *)
  Lemma dint_md x p q : box p -> box q -> 0 <= x -> x * x <= dist2 p q -> dint x <= md p q.
  Proof. intros A B X D. apply dint_le; [exact X|exact D|apply (d2_le p q A B)]. Qed.

  Definition mvalid (points : list pt) (res : mcloser) : Prop :=
    fst res = md (fst (snd res)) (snd (snd res)) /\ two_of points (fst (snd res)) (snd (snd res)).
  Definition mleast (points : list pt) (res : mcloser) : Prop := all_pairs (fun a b => fst res <= md a b) points.

  Lemma mbrute_fold l : Forall (fun pq => box (fst pq) /\ box (snd pq)) l -> forall res, exists r, mbrute_loop t l res = Ok r /\
    fst r <= fst res /\ (forall p q, In (p, q) l -> fst r <= md p q)
    /\ (r = res \/ (fst r = md (fst (snd r)) (snd (snd r)) /\ In (snd r) l)).
  Proof.
    induction 1 as [|pq l [A B] F IH]; intros res; cbn [mbrute_loop].
    { exists res. split; [reflexivity|]. split; [lia|]. split; [intros ? ? []|now left]. }
    rewrite mdistance_ok by assumption. cbn [bind].
    destruct (Z.ltb_spec (md (fst pq) (snd pq)) (fst res)) as [L|L].
    - destruct (IH (md (fst pq) (snd pq), pq)) as (r & E & R1 & R2 & R3). cbn [fst] in R1. exists r. split; [exact E|]. split; [lia|]. split.
      + intros p q [->|I]; [exact R1|auto].
      + right. destruct R3 as [->|[R3 R4]]; cbn; auto.
    - destruct (IH res) as (r & E & R1 & R2 & R3). exists r. split; [exact E|]. split; [lia|]. split.
      + intros p q [->|I]; [cbn in *; lia|auto].
      + destruct R3 as [->|[R3 R4]]; cbn; auto.
  Qed.
  Lemma mbrute_spec points : Forall box points -> (2 <= length points)%nat ->
    exists r, mbrute t points = Ok r /\ mvalid points r /\ mleast points r.
  Proof.
    intros FB L. unfold mbrute. pose proof (index_pairs_spec points) as S. pose proof (pairs_box x0 y0 W H points FB) as FP.
    destruct (index_pairs points) as [|pq l].
    { exfalso. destruct points as [|a [|b r]]; cbn in L; try lia. apply (proj2 (S a b)). exists [], [], r. reflexivity. }
    pose proof (Forall_inv FP) as [A B]. apply Forall_inv_tail in FP. rewrite mdistance_ok by assumption. cbn [bind].
    destruct (mbrute_fold l FP (md (fst pq) (snd pq), pq)) as (r & E & R1 & R2 & R3). cbn [fst] in R1. exists r. split; [exact E|]. split.
    - assert (V : fst r = md (fst (snd r)) (snd (snd r)) /\ In (snd r) (pq :: l)).
      { destruct R3 as [->|[C1 C2]]; cbn; auto. }
      destruct V as [V1 V2]. split; [exact V1|]. destruct (snd r) as [p q]. apply S in V2 as (l1 & l2 & l3 & ->).
      exists (l1 ++ l2 ++ l3). cbn.
      rewrite <- (Permutation_middle l1 (l2 ++ q :: l3) p). constructor. rewrite !app_assoc. apply Permutation_middle.
    - apply all_pairs_two. intros p q l1 l2 l3 El. assert (I : In (p, q) (pq :: l)) by (apply S; eauto).
      destruct I as [->|I]; [exact R1|auto].
  Qed.

  Lemma mstrip_inner_spec p : box p -> forall tmp res, Forall box tmp -> StronglySorted y_ge tmp -> (forall q, In q tmp -> py q <= py p) ->
    exists r, mstrip_inner t p tmp res = Ok r /\
    fst r <= fst res /\ (forall q, In q tmp -> fst r <= md p q)
    /\ (r = res \/ exists q, In q tmp /\ r = (md p q, (p, q))).
  Proof.
    intros BP. induction tmp as [|q tmp IH]; intros res FB S Y; cbn [mstrip_inner].
    { exists res. split; [reflexivity|]. split; [lia|]. split; [intros ? []|now left]. }
    inversion S as [|? ? S' F]; subst. assert (Yq : py q <= py p) by (apply Y; now left).
    pose proof (Forall_inv FB) as BQ. apply Forall_inv_tail in FB.
    pose proof (diff_y x0 y0 W H p q BP BQ) as DY. pose proof (Z.square_nonneg W).
    unfold msub. rewrite (small _ H) by (exact DY || lia). cbn [bind].
    destruct (Z.ltb_spec (dint (py p - py q)) (fst res)) as [G|G]; cbn [negb].
    - rewrite mdistance_ok by assumption. cbn [bind].
      match goal with |- context [mstrip_inner t p tmp ?x] => set (res' := x) end.
      destruct (IH res' FB S') as (r & E & A & B & C); [intros x X; apply Y; now right|].
      assert (R1 : fst res' <= fst res /\ fst res' <= md p q).
      { unfold res'. destruct (Z.ltb_spec (md p q) (fst res)); cbn; lia. }
      exists r. split; [exact E|]. split; [lia|]. split; [intros x [<-|X]; [lia | auto]|].
      destruct C as [->|(x & X & ->)]; [|right; exists x; split; [now right|reflexivity]].
      unfold res'. destruct (md p q <? fst res); [right; exists q; split; [now left|reflexivity] | now left].
    - exists res. split; [reflexivity|]. split; [lia|]. split; [|now left].
      assert (K : forall x, In x (q :: tmp) -> py x <= py q).
      { intros x [<-|X]; [lia|]. rewrite Forall_forall in F. exact (F x X). }
      intros x X. etransitivity; [exact G|]. apply dint_md; [exact BP| |lia|].
      + destruct X as [<-|X]; [exact BQ|]. rewrite Forall_forall in FB. now apply FB.
      + specialize (K x X). unfold dist2. pose proof (Z.square_nonneg (px p - px x)).
        assert ((py p - py q) * (py p - py q) <= (py p - py x) * (py p - py x)) by (apply Z.mul_le_mono_nonneg; lia). lia.
  Qed.
  Lemma mstrip_loop_spec mx pts : Forall box pts -> (forall p, In p pts -> Z.abs (px p - mx) <= W) ->
    StronglySorted y_le pts -> forall rest done tmp res,
    pts = done ++ rest -> incl tmp done -> StronglySorted y_ge tmp ->
    mvalid pts res ->
    all_pairs (fun a b => across mx a b -> fst res <= md a b) done ->
    (forall q, In q done -> In q tmp \/ fst res <= dint (Z.abs (px q - mx))) ->
    exists r, mstrip_loop t mx rest tmp res = Ok r /\
    fst r <= fst res /\ mvalid pts r /\ all_pairs (fun a b => across mx a b -> fst r <= md a b) pts.
  Proof.
    intros FB XB SY. induction rest as [|p rest IH]; intros done tmp res E I S V C T; cbn [mstrip_loop].
    - rewrite app_nil_r in E. subst. exists res. split; [reflexivity|]. split; [lia|]. auto.
    - assert (IP : In p pts) by (rewrite E; apply in_app_iff; right; now left).
      assert (BP : box p) by (rewrite Forall_forall in FB; now apply FB).
      assert (BD : forall q, In q done -> box q).
      { intros q Q. rewrite Forall_forall in FB. apply FB. rewrite E. apply in_app_iff. now left. }
      assert (Low : forall q, In q done -> py q <= py p).
      { intros q Q. rewrite E in SY. clear -SY Q. induction done as [|x done IH]; [destruct Q|].
        cbn in SY. inversion SY as [|? ? S F]; subst. destruct Q as [->|Q]; auto.
        rewrite Forall_forall in F. apply F. apply in_app_iff. right. now left. }
      assert (AD : forall a b, box a -> box b -> across mx a b -> dint (Z.abs (px a - mx)) <= md a b /\ dint (Z.abs (px b - mx)) <= md a b).
      { intros a b Ba Bb Ac. destruct (across_dist mx a b Ac) as [D1 D2]. split; (apply dint_md; [exact Ba|exact Bb|lia|rewrite Z.abs_square; assumption]). }
      pose proof (XB p IP) as XP. pose proof (Z.square_nonneg H).
      unfold msub. rewrite (small _ W) by (exact XP || lia). cbn [bind]. rewrite (small (Z.abs (px p - mx)) W) by lia. cbn [bind].
      assert (E' : pts = (done ++ [p]) ++ rest) by (rewrite <- app_assoc; exact E).
      destruct (Z.ltb_spec (dint (Z.abs (px p - mx))) (fst res)) as [G|G].
      + assert (FT : Forall box tmp) by (apply Forall_forall; intros q Q; apply BD, I, Q).
        destruct (mstrip_inner_spec p BP tmp res FT S) as (r & E1 & A & B & D); [intros q Q; apply Low, I, Q|].
        rewrite E1. cbn [bind].
        destruct (IH (done ++ [p]) (p :: tmp) r E') as (r' & E2 & A' & B' & C'); auto.
        * intros x [<-|X]; apply in_app_iff; [right; now left | left; now apply I].
        * constructor; auto. apply Forall_forall. intros q Q. unfold y_ge. apply Low, I, Q.
        * destruct D as [->|(q & Q & ->)]; [exact V|]. split; [reflexivity|]. cbn.
          apply I, in_split in Q as (d1 & d2 & ->). exists (d1 ++ d2 ++ rest). rewrite E, <- app_assoc. cbn.
          transitivity (q :: p :: d1 ++ d2 ++ rest); [constructor|].
          rewrite <- (Permutation_middle d1 (d2 ++ p :: rest) q). constructor.
          rewrite !app_assoc. apply Permutation_middle.
        * apply all_pairs_app.
          -- apply all_pairs_two. intros x y l1 l2 l3 El Ac. pose proof (proj1 (all_pairs_two _ _) C x y l1 l2 l3 El Ac). lia.
          -- repeat constructor.
          -- intros a b Ia [<-|[]] Ac. destruct (T a Ia) as [Ta|Ta].
             ++ rewrite md_sym. now apply B.
             ++ pose proof (proj1 (AD a p (BD a Ia) BP Ac)). lia.
        * intros q Q. apply in_app_iff in Q as [Q|[<-|[]]]; [|left; now left].
          destruct (T q Q) as [Tq|Tq]; [left; now right | right; lia].
        * exists r'. split; [exact E2|]. split; [lia|]. auto.
      + apply (IH (done ++ [p]) tmp res E'); auto.
        * intros x X. apply in_app_iff. left. now apply I.
        * apply all_pairs_app; auto; [repeat constructor|].
          intros a b Ia [<-|[]] Ac. pose proof (proj2 (AD a p (BD a Ia) BP Ac)). lia.
        * intros q Q. apply in_app_iff in Q as [Q|[<-|[]]]; auto.
  Qed.

  Theorem mnearest_rec_spec : forall fuel points, Forall box points -> (2 <= length points)%nat -> (length points <= fuel)%nat ->
    StronglySorted x_le points ->
    exists res pts, mnearest_rec fuel t points = Ok (res, pts) /\ Permutation pts points /\ StronglySorted y_le pts
    /\ mvalid points res /\ mleast points res.
  Proof.
    induction fuel as [|fuel IH]; intros points FB L2 LF S; [lia|].
    cbn [mnearest_rec]. destruct (Nat.leb_spec (length points) 3) as [H3|H3].
    - destruct (mbrute_spec points FB L2) as (r & E & V & M). rewrite E. cbn [bind].
      eexists _, _. split; [reflexivity|]. split; [apply sort_perm|]. split; [apply sort_y|]. auto.
    - set (n := length points) in *. set (m := (n / 2)%nat).
      assert (M : (2 <= m)%nat /\ (m + 2 <= n)%nat).
      { unfold m. pose proof (Nat.div_mod n 2 ltac:(lia)). pose proof (Nat.mod_upper_bound n 2 ltac:(lia)). lia. }
      assert (L1 : length (firstn m points) = m) by (rewrite firstn_length; fold n; lia).
      assert (L3 : length (skipn m points) = (n - m)%nat) by (rewrite skipn_length; reflexivity).
      pose proof (firstn_skipn m points) as FS. rewrite <- FS in S. apply sorted_split in S as (S1 & S3 & SX).
      assert (FF : Forall box (firstn m points) /\ Forall box (skipn m points)) by (rewrite <- FS in FB; now apply Forall_app).
      destruct (IH (firstn m points)) as (lres & lp & E1 & P1 & Y1 & V1 & T1); auto; [apply FF | lia | lia|].
      destruct (IH (skipn m points)) as (rres & rp & E3 & P3 & Y3 & V3 & T3); auto; [apply FF | lia | lia|].
      rewrite E1, E3. cbn [bind]. set (mx := px (nth m points (P 0 0))). set (res := if fst rres <? fst lres then rres else lres).
      set (pts := merge_by y_comp lp rp).
      assert (PP : Permutation pts points).
      { unfold pts. rewrite merge_by_perm, P1, P3, FS. reflexivity. }
      assert (SP : StronglySorted y_le pts) by now apply merge_by_sorted.
      assert (FP : Forall box pts) by (eapply Permutation_Forall; [symmetry; exact PP|exact FB]).
      assert (BM : box (nth m points (P 0 0))) by (rewrite Forall_forall in FB; apply FB, nth_In; fold n; lia).
      assert (XB : forall p, In p pts -> Z.abs (px p - mx) <= W).
      { intros p I. apply (diff_x x0 y0 W H); [|exact BM]. rewrite Forall_forall in FP. now apply FP. }
      assert (VR : mvalid points res).
      { unfold res. rewrite <- FS. destruct (fst rres <? fst lres).
        - destruct V3 as [A B]. split; auto. now apply two_of_app_r.
        - destruct V1 as [A B]. split; auto. now apply two_of_app_l. }
      destruct (mstrip_loop_spec mx pts FP XB SP pts [] [] res) as (r & E & A & B & C); auto.
      all: try now constructor.
      + intros x [].
      + destruct VR as [VA VB]. split; auto. eapply two_of_perm; [symmetry; exact PP | exact VB].
      + rewrite E. cbn [bind]. eexists _, _. split; [reflexivity|]. split; [exact PP|]. split; [exact SP|]. split.
        * destruct B as [BA BB]. split; auto. eapply two_of_perm; [exact PP | exact BB].
        * assert (RL : fst res <= fst lres /\ fst res <= fst rres).
          { unfold res. destruct (Z.ltb_spec (fst rres) (fst lres)); lia. }
          assert (C' : all_pairs (fun a b => across mx a b -> fst r <= md a b) points).
          { eapply all_pairs_perm; [|exact PP | exact C]. intros a b Q Ac. rewrite md_sym. apply Q. unfold across in *. tauto. }
          unfold mleast. rewrite <- FS. apply all_pairs_app.
          -- apply all_pairs_two. intros x y l1 l2 l3 El. pose proof (proj1 (all_pairs_two _ _) T1 x y l1 l2 l3 El). cbn in *. lia.
          -- apply all_pairs_two. intros x y l1 l2 l3 El. pose proof (proj1 (all_pairs_two _ _) T3 x y l1 l2 l3 El). cbn in *. lia.
          -- intros a b Ia Ib.
             assert (Mid : exists r3, skipn m points = nth m points (P 0 0) :: r3).
             { apply skipn_head. fold n. lia. }
             destruct Mid as [r3 Mid].
             assert (X1 : px a <= mx) by (unfold mx; apply SX; auto; rewrite Mid; now left).
             assert (X2 : mx <= px b).
             { rewrite Mid in S3, Ib. inversion S3 as [|? ? _ F]; subst. destruct Ib as [<-|Ib]; [unfold mx; lia|].
               rewrite Forall_forall in F. now apply F. }
             apply in_split in Ia as (a1 & a2 & Ea). apply in_split in Ib as (b1 & b2 & Eb).
             apply (proj1 (all_pairs_two _ _) C' a b a1 (a2 ++ b1) b2).
             ++ rewrite <- FS, Ea, Eb, <- !app_assoc. cbn. rewrite <- ?app_assoc. reflexivity.
             ++ left. lia.
  Qed.
  Theorem mnearest_pair_spec points : Forall box points -> (2 <= length points)%nat ->
    exists p q, mnearest_pair t points = Ok (p, q) /\ two_of points p q
    /\ all_pairs (fun a b => md p q <= md a b) points.
  Proof.
    intros FB L. unfold mnearest_pair. destruct (Z.ltb_spec 1 (Z.of_nat (length points))) as [_|N]; [|lia]. cbn [negb].
    assert (PS : Permutation (sort pless points) points) by apply sort_perm.
    assert (SS : StronglySorted below (sort pless points)).
    { apply sort_sorted; [intros x y G; now apply sbelow_below, pless_true | intros x y G; now apply pless_false | apply below_trans]. }
    pose proof (adjacent_equal_spec _ SS) as A. destruct (adjacent_equal (sort pless points)) as [[p q]|].
    - destruct A as [-> A]. exists q, q. split; auto. split; [eapply two_of_perm; eauto|].
      apply all_pairs_two. intros a b l1 l2 l3 El. unfold md at 1. unfold dist2. replace (_ + _) with 0 by ring.
      apply dmetric_nn, d2_le; rewrite Forall_forall in FB; apply FB; rewrite El; repeat (apply in_app_iff; right; try (now left); try right).
    - assert (SX : StronglySorted x_le (sort pless points)).
      { clear -SS. induction SS as [|x l S IH F]; constructor; auto. eapply Forall_impl; [|exact F]. unfold below, x_le. intros; lia. }
      assert (FS : Forall box (sort pless points)) by (eapply Permutation_Forall; [symmetry; exact PS|exact FB]).
      destruct (mnearest_rec_spec (length (sort pless points)) (sort pless points) FS) as (res & pts & E & _ & _ & [V1 V2] & T); auto.
      { rewrite (Permutation_length PS). exact L. }
      rewrite E. cbn [bind]. destruct (snd res) as [p q]. cbn in V1, V2. exists p, q. split; auto.
      split; [eapply two_of_perm; eauto|]. rewrite <- V1.
      eapply all_pairs_perm; [|exact PS | exact T]. intros a b. now rewrite md_sym.
  Qed.
  Section Farthest.
    Context (poly : list pt) (F : Forall box poly).
    Lemma dmetric_max a b : 0 <= a <= lim -> 0 <= b <= lim -> dmetric (Z.max a b) = Z.max (dmetric a) (dmetric b).
    Proof.
      intros A B. destruct (Z.max_spec a b) as [[L ->]|[L ->]]; symmetry.
      - apply Z.max_r. apply dmetric_le; lia.
      - apply Z.max_l. apply dmetric_le; lia.
    Qed.
    Lemma mmax_loop_spec pairs : (forall i j, In (i, j) pairs -> (i < length poly)%nat /\ (j < length poly)%nat) -> forall res, 0 <= res <= lim ->
      mmax_loop t poly pairs (dmetric res) =
      Ok (dmetric (fold_left (fun res ij => Z.max res (dist2 (vertex poly (fst ij)) (vertex poly (snd ij)))) pairs res)).
    Proof.
      induction pairs as [|[i j] pairs IH]; intros I res R; [reflexivity|]. cbn [mmax_loop fold_left fst snd].
      destruct (I i j ltac:(now left)) as [LI LJ].
      assert (B : forall k, (k < length poly)%nat -> box (vertex poly k)).
      { intros k K. rewrite Forall_forall in F. apply F. unfold vertex. now apply nth_In. }
      rewrite mdistance_ok by (apply B; assumption). cbn [bind].
      pose proof (d2_le _ _ (B i LI) (B j LJ)) as D. unfold md.
      rewrite <- dmetric_max by lia. apply IH; [|lia]. intros i' j' J. apply I. now right.
    Qed.
  End Farthest.
End Near.
