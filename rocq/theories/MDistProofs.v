(** Proofs about distances of type double between points with machine integers: MDistModel.v. *)
From Coq Require Import ZArith List Bool Lia Permutation.
From Verif Require ExtremeProofs.
From Verif Require Import Outcome IntTypes GeoModel HullProofs PolyModel NearestProofs WindProofs ExtremeModel MGeoModel MGeoProofs MDistModel.
Import ListNotations.
Local Open Scope Z_scope.

(** ** Rounded square roots *)
Lemma dround_small n : 0 <= n < 2 ^ 53 -> dround n = n.
Proof.
  intros B. unfold dround. destruct (Z.leb_spec (Z.log2 n - 52) 0) as [L|L]; [reflexivity|].
  destruct (Z.eq_dec n 0) as [->|N]; [cbn in L; lia|].
  pose proof (Z.log2_spec n ltac:(lia)) as [S _].
  assert (2 ^ 53 <= 2 ^ Z.log2 n) by (apply Z.pow_le_mono_r; lia). lia.
Qed.

Lemma sqrt_spec n : 0 < n < 2 ^ 106 -> exists h m, 0 <= h <= 52 /\ 4 ^ h <= n < 4 ^ (h + 1) /\ dsqrt n = m * 2 ^ h /\
  2 ^ 52 <= m <= 2 ^ 53 /\ m * (m - 1) < n * 4 ^ (52 - h) <= m * (m + 1).
Proof.
  intros B. unfold dsqrt. pose proof (Z.log2_spec n ltac:(lia)) as [L U]. pose proof (Z.log2_nonneg n) as L0.
  assert (L1 : Z.log2 n < 106) by (apply Z.log2_lt_pow2; lia).
  set (h := Z.log2 n / 2) in *. set (s := Z.sqrt (n * 4 ^ (52 - h))) in *.
  assert (Hh : 2 * h <= Z.log2 n < 2 * h + 2) by (unfold h; pose proof (Z.div_mod (Z.log2 n) 2 ltac:(lia)); pose proof (Z.mod_pos_bound (Z.log2 n) 2 ltac:(lia)); lia).
  assert (Rh : 0 <= h <= 52) by lia.
  assert (Bn : 4 ^ h <= n < 4 ^ (h + 1)).
  { change 4 with (2 ^ 2). rewrite <- !Z.pow_mul_r by lia. split.
    - apply Z.le_trans with (2 ^ Z.log2 n); [apply Z.pow_le_mono_r; lia|exact L].
    - apply Z.lt_le_trans with (2 ^ Z.succ (Z.log2 n)); [exact U|apply Z.pow_le_mono_r; lia]. }
  assert (E1 : 4 ^ h * 4 ^ (52 - h) = 2 ^ 52 * 2 ^ 52).
  { rewrite <- Z.pow_add_r by lia. replace (h + (52 - h)) with 52 by lia. reflexivity. }
  assert (E2 : 4 ^ (h + 1) * 4 ^ (52 - h) = 2 ^ 53 * 2 ^ 53).
  { rewrite <- Z.pow_add_r by lia. replace (h + 1 + (52 - h)) with 53 by lia. reflexivity. }
  assert (P4 : 0 < 4 ^ (52 - h)) by (apply Z.pow_pos_nonneg; lia).
  set (N := n * 4 ^ (52 - h)) in *.
  assert (BN : 2 ^ 52 * 2 ^ 52 <= N < 2 ^ 53 * 2 ^ 53).
  { unfold N. rewrite <- E1, <- E2. split; [apply Z.mul_le_mono_nonneg_r; lia | apply Z.mul_lt_mono_pos_r; lia]. }
  pose proof (Z.sqrt_spec N ltac:(lia)) as [S1 S2]. fold s in S1, S2.
  assert (Bs : 2 ^ 52 <= s < 2 ^ 53).
  { split.
    - apply Z.sqrt_le_square; [lia|lia|apply BN].
    - apply Z.sqrt_lt_square; [lia|lia|apply BN]. }
  exists h, (if N <=? s * s + s then s else s + 1).
  split; [exact Rh|]. split; [exact Bn|]. split; [reflexivity|].
  unfold Z.succ in S2.
  destruct (Z.leb_spec N (s * s + s)); split; try lia; clear - S1 S2 H BN Bs; nia.
Qed.
Lemma dsqrt_0 : dsqrt 0 = 0. Proof. reflexivity. Qed.
Lemma dsqrt_pos n : 0 < n < 2 ^ 106 -> 0 < dsqrt n.
Proof.
  intros B. destruct (sqrt_spec n B) as (h & m & Rh & _ & -> & M & _).
  assert (0 < 2 ^ h) by (apply Z.pow_pos_nonneg; lia). nia.
Qed.
Lemma dsqrt_nn n : 0 <= n < 2 ^ 106 -> 0 <= dsqrt n.
Proof.
  intros B. destruct (Z.eq_dec n 0) as [->|N]; [rewrite dsqrt_0; lia|]. pose proof (dsqrt_pos n ltac:(lia)). lia.
Qed.

Lemma h_mono ha hb a b : 0 <= ha -> 0 <= hb -> 4 ^ ha <= a -> b < 4 ^ (hb + 1) -> a <= b -> ha <= hb.
Proof.
  intros A B L U AB. destruct (Z_le_gt_dec ha hb) as [|G]; [assumption|].
  assert (4 ^ (hb + 1) <= 4 ^ ha) by (apply Z.pow_le_mono_r; lia). lia.
Qed.

(** Roots of different integers below 2^52 are different. *)
Lemma dsqrt_lt a b : 0 <= a < b -> b < 2 ^ 52 -> dsqrt a < dsqrt b.
Proof.
  intros AB Bb. assert (L106 : 2 ^ 52 < 2 ^ 106) by (apply Z.pow_lt_mono_r; lia).
  destruct (Z.eq_dec a 0) as [->|NA]; [rewrite dsqrt_0; apply dsqrt_pos; lia|].
  destruct (sqrt_spec a ltac:(lia)) as (ha & x & Ra & [La Ua] & -> & Mx & X1 & X2).
  destruct (sqrt_spec b ltac:(lia)) as (hb & y & Rb & [Lb Ub] & -> & My & Y1 & Y2).
  pose proof (h_mono ha hb a b ltac:(lia) ltac:(lia) La Ub ltac:(lia)) as HH.
  assert (HB : hb <= 25).
  { destruct (Z_le_gt_dec hb 25) as [|G]; [assumption|].
    assert (4 ^ 26 <= 4 ^ hb) by (apply Z.pow_le_mono_r; lia). change (4 ^ 26) with (2 ^ 52) in *. lia. }
  set (K := 2 ^ (hb - ha)). assert (PK : 1 <= K) by (unfold K; pose proof (Z.pow_pos_nonneg 2 (hb - ha)); lia).
  assert (E2 : 2 ^ hb = 2 ^ ha * K) by (unfold K; rewrite <- Z.pow_add_r by lia; f_equal; lia).
  assert (P2 : 0 < 2 ^ ha) by (apply Z.pow_pos_nonneg; lia).
  assert (E4 : 4 ^ (52 - ha) = 4 ^ (52 - hb) * (K * K)).
  { unfold K. rewrite <- Z.pow_mul_l. change (2 * 2) with 4. rewrite <- Z.pow_add_r by lia. f_equal; lia. }
  assert (G4 : 2 ^ 54 <= 4 ^ (52 - hb)).
  { change (2 ^ 54) with (4 ^ 27). apply Z.pow_le_mono_r; lia. }
  destruct (Z_lt_ge_dec (x * 2 ^ ha) (y * 2 ^ hb)) as [|G]; [assumption|exfalso].
  assert (XY : y * K <= x) by (rewrite E2 in G; nia).
  set (c := 4 ^ (52 - hb)) in *. rewrite E4 in X1.
  assert (S1 : b * (c * (K * K)) <= x * (x + K)) by nia.
  assert (S2 : c * (K * K) < x * (K + 1)) by nia.
  assert (x * (K + 1) <= 2 ^ 53 * (2 * K)) by (apply Z.mul_le_mono_nonneg; lia).
  assert (2 ^ 54 * (K * K) <= c * (K * K)) by (apply Z.mul_le_mono_nonneg_r; nia).
  change (2 ^ 54) with (2 * 2 ^ 53) in *. nia.
Qed.
(** Rounding keeps the order. *)
Lemma dsqrt_le a b : 0 <= a <= b -> b < 2 ^ 106 -> dsqrt a <= dsqrt b.
Proof.
  intros AB Bb.
  destruct (Z.eq_dec a 0) as [->|NA]; [rewrite dsqrt_0; apply dsqrt_nn; lia|].
  destruct (sqrt_spec a ltac:(lia)) as (ha & x & Ra & [La Ua] & -> & Mx & X1 & X2).
  destruct (sqrt_spec b ltac:(lia)) as (hb & y & Rb & [Lb Ub] & -> & My & Y1 & Y2).
  pose proof (h_mono ha hb a b ltac:(lia) ltac:(lia) La Ub ltac:(lia)) as HH.
  assert (P2 : 0 < 2 ^ ha) by (apply Z.pow_pos_nonneg; lia).
  destruct (Z.eq_dec ha hb) as [->|NE].
  - apply Z.mul_le_mono_nonneg_r; [lia|].
    assert (a * 4 ^ (52 - hb) <= b * 4 ^ (52 - hb)) by (apply Z.mul_le_mono_nonneg_r; [apply Z.pow_nonneg; lia|lia]). nia.
  - apply Z.le_trans with (2 ^ 53 * 2 ^ ha); [apply Z.mul_le_mono_nonneg_r; lia|].
    apply Z.le_trans with (2 ^ 52 * 2 ^ hb); [|apply Z.mul_le_mono_nonneg_r; [apply Z.pow_nonneg|]; lia].
    replace (2 ^ 53 * 2 ^ ha) with (2 ^ 52 * 2 ^ (ha + 1)) by (rewrite Z.pow_add_r by lia; ring).
    apply Z.mul_le_mono_nonneg_l; [lia|]. apply Z.pow_le_mono_r; lia.
Qed.
Lemma dsqrt_square x : 0 <= x < 2 ^ 53 -> dsqrt (x * x) = x * 2 ^ 52.
Proof.
  intros B. destruct (Z.eq_dec x 0) as [->|N]; [reflexivity|]. unfold dsqrt.
  assert (L : Z.log2 (x * x) < 106) by (apply Z.log2_lt_pow2; [nia|]; change (2 ^ 106) with (2 ^ 53 * 2 ^ 53); apply Z.mul_lt_mono_nonneg; lia).
  pose proof (Z.log2_nonneg (x * x)) as L0. set (h := Z.log2 (x * x) / 2).
  assert (Rh : 0 <= h <= 52) by (unfold h; split; [apply Z.div_pos; lia|]; apply Z.lt_succ_r; apply Z.div_lt_upper_bound; lia).
  assert (E : x * x * 4 ^ (52 - h) = (x * 2 ^ (52 - h)) * (x * 2 ^ (52 - h))).
  { change 4 with (2 * 2). rewrite Z.pow_mul_l. ring. }
  assert (P : 0 <= x * 2 ^ (52 - h)) by (apply Z.mul_nonneg_nonneg; [lia|apply Z.pow_nonneg; lia]).
  rewrite E, Z.sqrt_square by exact P. set (s := x * 2 ^ (52 - h)) in *.
  destruct (Z.leb_spec (s * s) (s * s + s)); [|lia].
  unfold s. rewrite <- Z.mul_assoc, <- Z.pow_add_r by lia. do 2 f_equal. lia.
Qed.
Lemma dsqrt_ltb a b : 0 <= a < 2 ^ 52 -> 0 <= b < 2 ^ 52 -> (dsqrt a <? dsqrt b) = (a <? b).
Proof.
  intros A B. destruct (Z.ltb_spec a b) as [L|L].
  - apply Z.ltb_lt. apply dsqrt_lt; lia.
  - apply Z.ltb_ge. apply dsqrt_le; [lia|]. assert (2 ^ 52 < 2 ^ 106) by (apply Z.pow_lt_mono_r; lia). lia.
Qed.
Lemma dint_ltb x d : 0 <= x -> x * x < 2 ^ 52 -> 0 <= d < 2 ^ 52 -> (dint x <? dsqrt d) = lt_dist x d.
Proof.
  intros X XX D. rewrite lt_dist_spec by exact X.
  assert (BX : x < 2 ^ 53) by (change (2 ^ 52) with 4503599627370496 in *; change (2 ^ 53) with 9007199254740992; nia).
  rewrite <- (dsqrt_ltb (x * x) d) by (pose proof (Z.square_nonneg x); lia). rewrite dsqrt_square by lia. unfold dint.
  destruct (Z.ltb_spec x 0); [lia|]. now rewrite dround_small by lia.
Qed.

(** ** Points in a box *)
Section Box.
  Variable t : ity.
  Variables x0 y0 W H : Z.
  Hypothesis HS : IntTypes.sgn t = true.
  Hypothesis HA : W * W + H * H <= top t.
  Let box := in_box x0 y0 W H.

  Lemma nn q : box q -> 0 <= W /\ 0 <= H. Proof. unfold box, in_box. lia. Qed.
  Lemma le_square z : 0 <= z -> z <= z * z. Proof. intros. nia. Qed.
  Lemma diff_x p q : box p -> box q -> Z.abs (px p - px q) <= W. Proof. unfold box, in_box. lia. Qed.
  Lemma diff_y p q : box p -> box q -> Z.abs (py p - py q) <= H. Proof. unfold box, in_box. lia. Qed.
  Lemma square_le a A : Z.abs a <= A -> 0 <= a * a <= A * A.
  Proof. intros. split; [apply Z.square_nonneg|]. rewrite <- (Z.abs_square a). apply Z.mul_le_mono_nonneg; lia. Qed.
  Lemma dist2_le p q : box p -> box q -> 0 <= dist2 p q <= W * W + H * H.
  Proof.
    intros A B. pose proof (square_le _ _ (diff_x p q A B)). pose proof (square_le _ _ (diff_y p q A B)). unfold dist2. lia.
  Qed.
  Lemma small_ok z : Z.abs z <= W * W + H * H -> iarith (promote t) z = Ok z.
  Proof. intros B. apply arith_ok; [now apply sgn_promote|lia]. Qed.
  Lemma psub_box p q : box p -> box q -> mpsub t p q = Ok (psub p q).
  Proof.
    intros A B. pose proof (nn p A) as [W0 H0]. pose proof (le_square W W0). pose proof (le_square H H0).
    pose proof (Z.square_nonneg W). pose proof (Z.square_nonneg H).
    apply mpsub_ok; [now apply sgn_promote| |]; [pose proof (diff_x p q A B)|pose proof (diff_y p q A B)]; lia.
  Qed.
  Lemma dot_box p q : box p -> box q -> mdot (promote t) (psub p q) (psub p q) = Ok (dist2 p q).
  Proof.
    intros A B. pose proof (square_le _ _ (diff_x p q A B)). pose proof (square_le _ _ (diff_y p q A B)).
    unfold mdot, mmul, madd, psub, dist2. cbn [px py]. rewrite promote_idem.
    rewrite small_ok by lia. cbn [bind]. rewrite small_ok by lia. cbn [bind].
    rewrite small_ok by lia. cbn [bind]. rewrite small_ok by lia. now rewrite Z.add_0_l.
  Qed.

  Section Exact.
    Hypothesis H53 : W * W + H * H <= 2 ^ 53 - 1.
    Lemma distance_box p q : box p -> box q -> mdistance t p q = Ok (dsqrt (dist2 p q)).
    Proof.
      intros A B. unfold mdistance. rewrite psub_box by assumption. cbn [bind]. rewrite dot_box by assumption. cbn [bind].
      rewrite dround_small; [reflexivity|]. pose proof (dist2_le p q A B). lia.
    Qed.
  End Exact.

  Section Near.
    Hypothesis H52 : W * W + H * H < 2 ^ 52.
    Lemma H53 : W * W + H * H <= 2 ^ 53 - 1. Proof. change (2 ^ 53) with (2 * 2 ^ 52). lia. Qed.
    Definition good (c : closer) : Prop := 0 <= fst c < 2 ^ 52.
    Definition dbl (c : closer) : mcloser := (dsqrt (fst c), snd c).
    Lemma dist_good p q pq : box p -> box q -> good (dist2 p q, pq).
    Proof. intros A B. pose proof (dist2_le p q A B). unfold good. cbn [fst]. lia. Qed.
    Lemma dbl_step d pq res : 0 <= d < 2 ^ 52 -> good res ->
      (if dsqrt d <? fst (dbl res) then (dsqrt d, pq) else dbl res) = dbl (if d <? fst res then (d, pq) else res).
    Proof. intros D G. unfold dbl at 1. cbn [fst]. rewrite dsqrt_ltb by (exact D || exact G). now destruct (d <? fst res). Qed.

    Lemma brute_loop_ok l : Forall (fun pq => box (fst pq) /\ box (snd pq)) l -> forall res, good res ->
      mbrute_loop t l (dbl res) = Ok (dbl (fold_left brute_step l res)) /\ good (fold_left brute_step l res).
    Proof.
      induction 1 as [|[p q] l [A B] F IH]; intros res G; [split; [reflexivity|exact G]|].
      cbn [mbrute_loop fold_left fst snd]. cbn [fst snd] in A, B. rewrite distance_box by (apply H53 || assumption). cbn [bind].
      pose proof (dist2_le p q A B). rewrite dbl_step by (exact G || lia).
      apply IH. unfold brute_step. cbn [fst snd]. destruct (dist2 p q <? fst res); [now apply dist_good|exact G].
    Qed.
    Lemma pairs_box points : Forall box points -> Forall (fun pq => box (fst pq) /\ box (snd pq)) (index_pairs points).
    Proof.
      induction 1 as [|p l B F IH]; [constructor|]. cbn. apply Forall_app. split; [|exact IH].
      apply Forall_map. eapply Forall_impl; [|exact F]. intros q Q. now split.
    Qed.
    Lemma brute_ok points : Forall box points -> mbrute t points = Ok (dbl (brute points)) /\ good (brute points).
    Proof.
      intros F. apply pairs_box in F. unfold mbrute, brute. destruct F as [|[p q] l [A B] F].
      - split; [reflexivity|]. unfold good. cbn [fst]. lia.
      - cbn [fst snd] in *. rewrite distance_box by (apply H53 || assumption). cbn [bind].
        change (dsqrt (dist2 p q), (p, q)) with (dbl (dist2 p q, (p, q))). apply brute_loop_ok; [exact F|now apply dist_good].
    Qed.

    Lemma inner_ok p tmp : box p -> Forall box tmp -> (forall q, In q tmp -> py q <= py p) -> forall res, good res ->
      mstrip_inner t p tmp (dbl res) = Ok (dbl (strip_inner p tmp res)) /\ good (strip_inner p tmp res).
    Proof.
      intros A F. induction F as [|q tmp B F IH]; intros Y res G; [split; [reflexivity|exact G]|].
      cbn [mstrip_inner strip_inner]. pose proof (Y q ltac:(now left)) as Yq.
      pose proof (square_le _ _ (diff_y p q A B)) as SY. pose proof (Z.square_nonneg W) as SW.
      pose proof (nn p A) as [_ H0]. pose proof (le_square H H0). pose proof (diff_y p q A B).
      unfold msub. rewrite small_ok by lia. cbn [bind]. change (fst (dbl res)) with (dsqrt (fst res)).
      rewrite dint_ltb by (exact G || lia).
      destruct (lt_dist (py p - py q) (fst res)); cbn [negb]; [|split; [reflexivity|exact G]].
      rewrite distance_box by (apply H53 || assumption). cbn [bind].
      change (dsqrt (fst res)) with (fst (dbl res)). pose proof (dist2_le p q A B).
      rewrite dbl_step by (exact G || lia). apply IH.
      - intros q' Q. apply Y. now right.
      - destruct (dist2 p q <? fst res); [now apply dist_good|exact G].
    Qed.
    Lemma strip_ok mx points : Forall box points -> Sorted.StronglySorted y_le points -> (forall p, In p points -> Z.abs (px p - mx) <= W) ->
      forall tmp res, Forall box tmp -> (forall q p, In q tmp -> In p points -> py q <= py p) -> good res ->
      mstrip_loop t mx points tmp (dbl res) = Ok (dbl (strip_loop mx points tmp res)) /\ good (strip_loop mx points tmp res).
    Proof.
      induction 1 as [|p points A F IH]; intros S X tmp res T Y G; [split; [reflexivity|exact G]|].
      cbn [mstrip_loop strip_loop]. inversion S as [|? ? S' SF]; subst.
      pose proof (X p ltac:(now left)) as XP. pose proof (square_le _ _ XP) as SX. pose proof (Z.square_nonneg H) as SH.
      pose proof (nn p A) as [W0 _]. pose proof (le_square W W0).
      unfold msub. rewrite small_ok by lia. cbn [bind]. rewrite small_ok by lia. cbn [bind].
      change (fst (dbl res)) with (dsqrt (fst res)).
      rewrite dint_ltb by (exact G || (try rewrite Z.abs_square; lia)).
      destruct (lt_dist (Z.abs (px p - mx)) (fst res)).
      - destruct (inner_ok p tmp A T (fun q Q => Y q p Q ltac:(now left)) res G) as [E G'].
        rewrite E. cbn [bind]. apply IH; auto.
        + intros q Q. apply X. now right.
        + intros q q' [<-|Q] Q'; [|apply Y; [exact Q|now right]].
          rewrite Forall_forall in SF. exact (SF q' Q').
      - apply IH; auto.
        + intros q Q. apply X. now right.
        + intros q q' Q Q'. apply Y; [exact Q|now right].
    Qed.

    Lemma rec_ok : forall fuel points, Forall box points -> (length points <= fuel)%nat ->
      exists res pts, nearest_rec fuel points = Ok (res, pts) /\ mnearest_rec fuel t points = Ok (dbl res, pts) /\ good res /\
        Permutation pts points /\ Sorted.StronglySorted y_le pts.
    Proof.
      induction fuel as [|fuel IH]; intros points F L.
      - destruct points; [|cbn in L; lia]. exists (0, (P 0 0, P 0 0)), []. split; [reflexivity|]. split; [reflexivity|].
        split; [unfold good; cbn [fst]; lia|]. split; constructor.
      - cbn [nearest_rec mnearest_rec]. destruct (Nat.leb_spec (length points) 3) as [L3|L3].
        + destruct (brute_ok points F) as [E G]. do 2 eexists. split; [reflexivity|]. rewrite E.
          split; [reflexivity|]. split; [exact G|]. split; [apply sort_perm|apply sort_y].
        + set (middle := (length points / 2)%nat).
          assert (Hm : (2 <= middle < length points)%nat).
          { unfold middle. split; [apply Nat.div_le_lower_bound; lia|apply Nat.div_lt_upper_bound; lia]. }
          pose proof (firstn_skipn middle points) as FS.
          assert (FF : Forall box (firstn middle points) /\ Forall box (skipn middle points)) by (rewrite <- FS in F; now apply Forall_app).
          destruct (IH (firstn middle points)) as (lres & lpts & E1 & M1 & G1 & P1 & S1); [apply FF|rewrite firstn_length; lia|].
          destruct (IH (skipn middle points)) as (rres & rpts & E2 & M2 & G2 & P2 & S2); [apply FF|rewrite skipn_length; lia|].
          rewrite E1, E2, M1, M2. cbn [bind].
          assert (PM : Permutation (merge_by y_comp lpts rpts) points) by (rewrite merge_by_perm, P1, P2, FS; reflexivity).
          assert (SM : Sorted.StronglySorted y_le (merge_by y_comp lpts rpts)) by now apply merge_by_sorted.
          assert (FM : Forall box (merge_by y_comp lpts rpts)) by (eapply Permutation_Forall; [symmetry; exact PM|exact F]).
          assert (BM : box (nth middle points (P 0 0))) by (rewrite Forall_forall in F; apply F, nth_In; lia).
          assert (ER : (if fst (dbl rres) <? fst (dbl lres) then dbl rres else dbl lres) = dbl (if fst rres <? fst lres then rres else lres)).
          { unfold dbl at 1 2. cbn [fst]. rewrite dsqrt_ltb by (exact G1 || exact G2). now destruct (fst rres <? fst lres). }
          rewrite ER.
          assert (GR : good (if fst rres <? fst lres then rres else lres)) by (destruct (fst rres <? fst lres); assumption).
          assert (XB : forall p, In p (merge_by y_comp lpts rpts) -> Z.abs (px p - px (nth middle points (P 0 0))) <= W).
          { intros p I. apply diff_x; [|exact BM]. rewrite Forall_forall in FM. now apply FM. }
          destruct (strip_ok (px (nth middle points (P 0 0))) _ FM SM XB [] _ (Forall_nil _) (fun q p (I : In q []) _ => match I with end) GR) as [E G].
          rewrite E. cbn [bind]. do 2 eexists. split; [reflexivity|]. split; [reflexivity|]. auto.
    Qed.
    Lemma pair_ok points : Forall box points -> mnearest_pair t points = nearest_pair points.
    Proof.
      intros F. unfold mnearest_pair, nearest_pair. destruct (1 <? Z.of_nat (length points)); [|reflexivity]. cbn [negb].
      assert (F' : Forall box (sort pless points)) by (eapply Permutation_Forall; [symmetry; apply sort_perm|exact F]).
      destruct (adjacent_equal (sort pless points)); [reflexivity|].
      destruct (rec_ok (length (sort pless points)) (sort pless points) F' (le_n _)) as (res & pts & E & M & _).
      rewrite E, M. reflexivity.
    Qed.
  End Near.
End Box.

(** ** Convex polygons *)
Section Calipers.
  Variable t : ity.
  Variables x0 y0 W H : Z.
  Context (poly : list pt) (C : convex poly) (F : Forall (in_box x0 y0 W H) poly).
  Hypothesis HS : IntTypes.sgn t = true.
  Hypothesis HW : W <= top t.
  Hypothesis HH : H <= top t.
  Hypothesis HA : W * H <= top t.
  Notation V := (cyc poly).
  Lemma V_box i : in_box x0 y0 W H (V i).
  Proof. rewrite Forall_forall in F. apply F. apply ExtremeProofs.V_in, C. Qed.
  Lemma edge_area i j : Z.abs (area (psub (V (j + 1)) (V j)) (psub (V (i + 1)) (V i))) <= W * H.
  Proof.
    pose proof (ExtremeProofs.left_weak poly C i j) as A. pose proof (ExtremeProofs.left_weak poly C i (j + 1)) as B.
    pose proof (turn_bound x0 y0 W H _ _ _ (V_box i) (V_box (i + 1)) (V_box j)) as TA.
    pose proof (turn_bound x0 y0 W H _ _ _ (V_box i) (V_box (i + 1)) (V_box (j + 1))) as TB.
    replace (area (psub (V (j + 1)) (V j)) (psub (V (i + 1)) (V i)))
      with (turn (V i) (V (i + 1)) (V j) - turn (V i) (V (i + 1)) (V (j + 1))) by (unfold area, turn, psub; cbn [px py]; ring).
    lia.
  Qed.
  Lemma edge_ok i : mpsub t (V (i + 1)) (V i) = Ok (psub (V (i + 1)) (V i)).
  Proof.
    pose proof (V_box i) as A. pose proof (V_box (i + 1)) as B. unfold in_box in *.
    apply mpsub_ok; [now apply sgn_promote| |]; lia.
  Qed.
  Lemma edge_orient i j : morient (promote t) (psub (V (i + 1)) (V i)) (psub (V (j + 1)) (V j)) =
    Ok (orient (psub (V (i + 1)) (V i)) (psub (V (j + 1)) (V j))).
  Proof.
    unfold morient. pose proof (V_box i) as A. pose proof (V_box (i + 1)) as B. pose proof (V_box j) as A'. pose proof (V_box (j + 1)) as B'.
    rewrite marea_ok; [reflexivity|now rewrite promote_idem; apply sgn_promote| | |]; rewrite top_promote.
    - etransitivity; [apply abs_mul_le with (A := W) (B := H)|lia]; cbn [psub px py]; unfold in_box in *; lia.
    - etransitivity; [apply abs_mul_le with (A := H) (B := W)|lia]; cbn [psub px py]; unfold in_box in *; lia.
    - etransitivity; [apply edge_area|exact HA].
  Qed.
  Lemma antipodal_ok : forall fuel i j, (j <= length poly)%nat ->
    mantipodal_loop fuel t poly i j = antipodal_loop fuel poly i j.
  Proof.
    induction fuel as [|fuel IH]; intros i j JN; [reflexivity|]. cbn [mantipodal_loop antipodal_loop].
    destruct (Nat.eqb_spec j (length poly)) as [E|NJ]; [reflexivity|].
    assert (EJ : vertex poly (if Nat.eqb (j + 1) (length poly) then 0 else j + 1)%nat = V (Z.of_nat j + 1)).
    { destruct (Nat.eqb_spec (j + 1) (length poly)) as [E|E].
      - rewrite (ExtremeProofs.vertex_V poly) by lia. rewrite <- (ExtremeProofs.V_cycle poly C). f_equal. lia.
      - rewrite (ExtremeProofs.vertex_V poly) by lia. f_equal. lia. }
    rewrite EJ, (ExtremeProofs.vertex_V poly j), edge_ok by lia. cbn [bind].
    destruct (Nat.leb_spec (length poly) (i + 1)) as [Q|Q]; [reflexivity|].
    rewrite !(ExtremeProofs.vertex_V poly) by lia. replace (Z.of_nat (i + 1)) with (Z.of_nat i + 1) by lia.
    rewrite edge_ok. cbn [bind]. rewrite edge_orient. cbn [bind]. unfold left_turn.
    destruct (orient _ _ =? o_left); rewrite IH by lia; reflexivity.
  Qed.
  Lemma antipodal_vertices_ok : mantipodal_vertices t poly = antipodal_vertices poly.
  Proof.
    pose proof (antipodal_ok (2 * length poly) 0 1 ltac:(destruct C; lia)) as X. revert X.
    unfold mantipodal_vertices, antipodal_vertices. case poly; [reflexivity|]. intros v l X. exact X.
  Qed.
End Calipers.

Section Farthest.
  Variable t : ity.
  Variables x0 y0 W H : Z.
  Context (poly : list pt) (F : Forall (in_box x0 y0 W H) poly).
  Hypothesis HS : IntTypes.sgn t = true.
  Hypothesis HA : W * W + H * H <= top t.
  Hypothesis H53 : W * W + H * H <= 2 ^ 53 - 1.
  Lemma dsqrt_max a b : 0 <= a < 2 ^ 106 -> 0 <= b < 2 ^ 106 -> dsqrt (Z.max a b) = Z.max (dsqrt a) (dsqrt b).
  Proof.
    intros A B. destruct (Z.max_spec a b) as [[L ->]|[L ->]]; symmetry.
    - apply Z.max_r. apply dsqrt_le; lia.
    - apply Z.max_l. apply dsqrt_le; lia.
  Qed.
  Lemma max_loop_ok pairs : (forall i j, In (i, j) pairs -> (i < length poly)%nat /\ (j < length poly)%nat) -> forall res, 0 <= res < 2 ^ 53 ->
    mmax_loop t poly pairs (dsqrt res) =
    Ok (dsqrt (fold_left (fun res ij => Z.max res (dist2 (vertex poly (fst ij)) (vertex poly (snd ij)))) pairs res)).
  Proof.
    induction pairs as [|[i j] pairs IH]; intros I res R; [reflexivity|]. cbn [mmax_loop fold_left fst snd].
    destruct (I i j ltac:(now left)) as [LI LJ].
    assert (B : forall k, (k < length poly)%nat -> in_box x0 y0 W H (vertex poly k)).
    { intros k K. rewrite Forall_forall in F. apply F. unfold vertex. now apply nth_In. }
    rewrite (distance_box t x0 y0 W H) by (try assumption; apply B; assumption). cbn [bind].
    pose proof (dist2_le x0 y0 W H _ _ (B i LI) (B j LJ)) as D.
    assert (L106 : 2 ^ 53 < 2 ^ 106) by (apply Z.pow_lt_mono_r; lia).
    rewrite <- dsqrt_max by lia. apply IH; [|lia]. intros i' j' J. apply I. now right.
  Qed.
End Farthest.
