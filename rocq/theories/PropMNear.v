(** C128, continued: closest pair and largest distance over machine integers when the distances of type
    double are rounded, that is for all boxes in which nothing overflows. *)
From Coq Require Import ZArith QArith List Bool Lia Permutation.
From Verif Require Import Outcome IntTypes GeoModel HullProofs PolyModel WindProofs NearestProofs ExtremeModel ExtremeProofs MGeoModel MGeoProofs MDistModel MDistProofs MNearProofs PropMDist.
From Verif Require FGeoModel PropPoly.
Import ListNotations.
Local Open Scope Z_scope.

(** ** Specification *)
(** [r], in units of 2^-52, is the root, rounded to nearest, of the number of type double that is nearest to [D]. *)
Definition double_root (D r : Z) : Prop :=
  exists D', (FGeoModel.round FGeoModel.double (inject_Z D) == inject_Z D')%Q /\ (0 < D' -> nearest_root D' r) /\ (D' = 0 -> r = 0).

Lemma nearest_root_dsqrt M : 0 < M < 2 ^ 106 -> nearest_root M (dsqrt M).
Proof.
  intro B. destruct (sqrt_spec M B) as (h & m & Rh & _ & -> & Rm & X1 & X2). exists m, h. split; [lia|]. split; [reflexivity|]. split; [exact Rm|].
  assert (E4 : 4 ^ 52 = 4 ^ (52 - h) * 4 ^ h) by (rewrite <- Z.pow_add_r by lia; f_equal; lia).
  rewrite E4. set (c := 4 ^ h). set (d := 4 ^ (52 - h)) in *. assert (PC : 0 < c) by (apply Z.pow_pos_nonneg; lia).
  replace (4 * (M * (d * c))) with (4 * (M * d) * c) by ring. rewrite !Z.pow_2_r.
  split; apply Z.mul_le_mono_nonneg_r; nia.
Qed.
Lemma dmetric_root D : 0 <= D <= lim -> double_root D (dmetric D).
Proof.
  intro B. exists (dround D). split; [apply dround_spec; lia|]. pose proof (dround_lim D B). pose proof lim_106. unfold dmetric. split.
  - intro P. apply nearest_root_dsqrt. lia.
  - intros ->. reflexivity.
Qed.
(** Relative errors: 2^-53 for each rounding. *)
Lemma nearest_root_error D r : nearest_root D r -> D * 4 ^ 52 * (2 ^ 53) ^ 2 <= r ^ 2 * (2 ^ 53 + 1) ^ 2 /\ r ^ 2 * (2 ^ 53 - 1) ^ 2 <= D * 4 ^ 52 * (2 ^ 53) ^ 2.
Proof.
  intros (m & h & Rh & -> & Rm & A & B). set (N := D * 4 ^ 52) in *.
  assert (C : 4 ^ h = 2 ^ h * 2 ^ h) by (change 4 with (2 * 2); apply Z.pow_mul_l). rewrite C in *. clear C.
  assert (P : 0 < 2 ^ h) by (apply Z.pow_pos_nonneg; lia). set (g := 2 ^ h) in *. clearbody N g. clear Rh.
  set (T := 2 ^ 53) in *. assert (T2 : T <= 2 * m) by (change T with (2 * 2 ^ 52); lia). assert (T0 : 1 < T) by reflexivity. clearbody T. clear Rm.
  rewrite !Z.pow_2_r in *.
  assert (K1 : ((2 * m + 1) * T) * ((2 * m + 1) * T) <= (2 * m * (T + 1)) * (2 * m * (T + 1))) by (apply Z.mul_le_mono_nonneg; nia).
  assert (K2 : (2 * m * (T - 1)) * (2 * m * (T - 1)) <= ((2 * m - 1) * T) * ((2 * m - 1) * T)) by (apply Z.mul_le_mono_nonneg; nia).
  split.
  - assert (4 * N * (T * T) <= ((2 * m + 1) * (2 * m + 1) * (g * g)) * (T * T)) by (apply Z.mul_le_mono_nonneg_r; nia).
    assert (((2 * m + 1) * T) * ((2 * m + 1) * T) * (g * g) <= (2 * m * (T + 1)) * (2 * m * (T + 1)) * (g * g)) by (apply Z.mul_le_mono_nonneg_r; nia).
    lia.
  - assert ((2 * m - 1) * (2 * m - 1) * (g * g) * (T * T) <= 4 * N * (T * T)) by (apply Z.mul_le_mono_nonneg_r; nia).
    assert ((2 * m * (T - 1)) * (2 * m * (T - 1)) * (g * g) <= ((2 * m - 1) * T) * ((2 * m - 1) * T) * (g * g)) by (apply Z.mul_le_mono_nonneg_r; nia).
    lia.
Qed.

(** ** C128 *)
(** Integers are converted to double as IEEE 754 says. *)
Theorem C128_conversion : forall n, 0 <= n -> (FGeoModel.round FGeoModel.double (inject_Z n) == inject_Z (dround n))%Q.
Proof. exact dround_spec. Qed.

(** The pair returned has the smallest distance of type double, even where roundings make different distances equal. *)
Theorem C128_nearest_rounded : forall t points, IntTypes.sgn t = true -> boxed t (2 ^ 105) points -> (2 <= length points)%nat ->
  exists p q rest, mnearest_pair t points = Ok (p, q) /\ Permutation (p :: q :: rest) points /\
    forall a b l1 l2 l3, points = l1 ++ a :: l2 ++ b :: l3 ->
      exists r s, double_root (square_dist p q) r /\ double_root (square_dist a b) s /\ r <= s.
Proof.
  intros t points HS (x0 & y0 & W & H & B & D & T) L.
  assert (F : Forall (in_box x0 y0 W H) points) by (apply Forall_forall; exact B).
  destruct (mnearest_pair_spec t x0 y0 W H HS ltac:(unfold top; lia) D points F L) as (p & q & E & [rest R] & M).
  exists p, q, rest. split; [exact E|]. split; [exact R|]. intros a b l1 l2 l3 El.
  assert (I : forall v, In v points -> in_box x0 y0 W H v) by now apply Forall_forall.
  exists (md p q), (md a b). rewrite !square_dist2. split; [|split].
  - apply dmetric_root, (d2_le x0 y0 W H D); apply I; eapply Permutation_in; try exact R; [now left|right; now left].
  - apply dmetric_root, (d2_le x0 y0 W H D); apply I; rewrite El; apply in_app_iff; right; [now left|right; apply in_app_iff; right; now left].
  - exact (proj1 (all_pairs_two _ _) M a b l1 l2 l3 El).
Qed.

(** So its square exceeds the smallest one by a factor of at most 1 + 2^-50. *)
Theorem C128_nearest_error : forall t points, IntTypes.sgn t = true -> boxed t (2 ^ 105) points -> (2 <= length points)%nat ->
  exists p q rest, mnearest_pair t points = Ok (p, q) /\ Permutation (p :: q :: rest) points /\
    forall a b l1 l2 l3, points = l1 ++ a :: l2 ++ b :: l3 -> 2 ^ 50 * square_dist p q <= (2 ^ 50 + 1) * square_dist a b.
Proof.
  intros t points HS (x0 & y0 & W & H & B & D & T) L.
  assert (F : Forall (in_box x0 y0 W H) points) by (apply Forall_forall; exact B).
  destruct (mnearest_pair_spec t x0 y0 W H HS ltac:(unfold top; lia) D points F L) as (p & q & E & [rest R] & M).
  exists p, q, rest. split; [exact E|]. split; [exact R|]. intros a b l1 l2 l3 El. rewrite !square_dist2.
  assert (I : forall v, In v points -> in_box x0 y0 W H v) by now apply Forall_forall.
  assert (DP : 0 <= dist2 p q <= lim) by (apply (d2_le x0 y0 W H D); apply I; eapply Permutation_in; try exact R; [now left|right; now left]).
  assert (DA : 0 <= dist2 a b <= lim)
    by (apply (d2_le x0 y0 W H D); apply I; rewrite El; apply in_app_iff; right; [now left|right; apply in_app_iff; right; now left]).
  pose proof (proj1 (all_pairs_two _ _) M a b l1 l2 l3 El) as K. cbn beta in K. unfold md, dmetric in K.
  set (d := dist2 p q) in *. set (c := dist2 a b) in *. clearbody d c.
  destruct (Z.eq_dec d 0) as [->|Nd]; [lia|].
  destruct (dround_err d ltac:(lia)) as (k & Kk & Kd & Ed). pose proof lim_106 as L6.
  pose proof (dround_lim d DP) as Ld. assert (Pd : 0 < dround d) by lia. assert (E1 : 2 ^ 53 * Z.abs (dround d - d) <= d) by lia. clear Ed Kd Kk k.
  destruct (Z.eq_dec c 0) as [->|Nc].
  { exfalso. change (dsqrt (dround 0)) with 0 in K. pose proof (dsqrt_pos (dround d) ltac:(lia)). lia. }
  destruct (dround_err c ltac:(lia)) as (k & Kk & Kc & Ec). pose proof (dround_lim c DA) as Lc. assert (Pc : 0 < dround c) by lia.
  assert (E2 : 2 ^ 53 * Z.abs (dround c - c) <= c) by lia. clear Ec Kc Kk k.
  destruct (nearest_root_error _ _ (nearest_root_dsqrt (dround d) ltac:(lia))) as [U _].
  destruct (nearest_root_error _ _ (nearest_root_dsqrt (dround c) ltac:(lia))) as [_ V].
  pose proof (dsqrt_pos (dround d) ltac:(lia)) as Rp. pose proof (dsqrt_pos (dround c) ltac:(lia)) as Sp.
  set (r := dsqrt (dround d)) in *. set (s := dsqrt (dround c)) in *. set (d' := dround d) in *. set (c' := dround c) in *. clearbody r s d' c'.
  assert (RS : r ^ 2 <= s ^ 2) by (rewrite !Z.pow_2_r; apply Z.mul_le_mono_nonneg; lia). set (r2 := r ^ 2) in *. set (s2 := s ^ 2) in *. clearbody r2 s2.
  assert (Q : d' * (2 ^ 53 - 1) ^ 2 <= c' * (2 ^ 53 + 1) ^ 2).
  { change (4 ^ 52) with 20282409603651670423947251286016 in *. change ((2 ^ 53) ^ 2) with 81129638414606681695789005144064 in *.
    change ((2 ^ 53 + 1) ^ 2) with 81129638414606699710187514626049 in *. change ((2 ^ 53 - 1) ^ 2) with 81129638414606663681390495662081 in *. lia. }
  change ((2 ^ 53 - 1) ^ 2) with 81129638414606663681390495662081 in Q. change ((2 ^ 53 + 1) ^ 2) with 81129638414606699710187514626049 in Q.
  change (2 ^ 50) with 1125899906842624. change (2 ^ 53) with 9007199254740992 in *. lia.
Qed.

(** The largest distance is the rounded distance of two vertices that are farthest apart. *)
Theorem C128_max_distance_rounded : forall t poly, IntTypes.sgn t = true -> boxed t (2 ^ 105) poly -> convex poly ->
  exists r v w, mmax_distance t poly = Ok r /\ In v poly /\ In w poly /\ double_root (square_dist v w) r /\
    forall v' w', In v' poly -> In w' poly -> square_dist v' w' <= square_dist v w.
Proof.
  intros t poly HS (x0 & y0 & W & H & B & D & T) C.
  assert (F : Forall (in_box x0 y0 W H) poly) by (apply Forall_forall; exact B).
  assert (WH : 0 <= W /\ 0 <= H) by (pose proof (B (cyc poly 0) (V_in poly C 0)); lia).
  assert (S : W <= W * W /\ H <= H * H /\ W * H <= W * W + H * H) by nia.
  destruct (antipodal_spec poly C) as (pairs & E & I & _).
  destruct (max_distance_spec poly C) as (M & EM & (v & w & Iv & Iw & EV) & MM).
  unfold max_distance in EM. rewrite E in EM. cbn [bind] in EM. injection EM as EM.
  exists (dmetric M), v, w. unfold mmax_distance.
  rewrite (antipodal_vertices_ok t x0 y0 W H poly C F HS) by (unfold top; lia). rewrite E. cbn [bind].
  change 0 with (dmetric 0) at 1.
  rewrite (mmax_loop_spec t x0 y0 W H HS ltac:(unfold top; lia) D poly F); [|intros i j J; apply I in J; lia|unfold lim; lia].
  rewrite EM. split; [reflexivity|]. split; [exact Iv|]. split; [exact Iw|]. rewrite !square_dist2. split.
  - rewrite <- EV. apply dmetric_root. rewrite EV. apply (d2_le x0 y0 W H D); apply B; assumption.
  - intros v' w' V' W'. rewrite square_dist2, <- EV. now apply MM.
Qed.

(** A box with a squared diagonal above 2^62; and the points of [C128_double_refuted], for which the pair
    returned is not the closest one but has the same rounded distance. *)
Example C128_case_rounded : let pts := [P 0 0; P 2000000000 1; P (-7) 2000000000; P 2000000000 2000000003; P 1000000000 1000000000] in
  boxed int64 (2 ^ 105) pts /\ (2 <= length pts)%nat /\ mnearest_pair int64 pts = Ok (P 1000000000 1000000000, P 2000000000 1) /\
  boxed int64 (2 ^ 105) [P 0 0; P 1 (2 ^ 26); P (2 ^ 26) 0] /\
  mnearest_pair int64 [P 0 0; P 1 (2 ^ 26); P (2 ^ 26) 0] = Ok (P 0 0, P 1 (2 ^ 26)).
Proof.
  cbv zeta. split.
  { exists (-7), 0, 2000000007, 2000000003. split; [|split; [vm_compute; discriminate|vm_compute; reflexivity]].
    intros q I. repeat (destruct I as [<-|I]; [cbn [px py]; lia|]). destruct I. }
  split; [cbn; lia|]. split; [vm_compute; reflexivity|]. split; [|vm_compute; reflexivity].
  exists 0, 0, (2 ^ 26), (2 ^ 26). split; [|split; [vm_compute; discriminate|vm_compute; reflexivity]].
  intros q [<-|[<-|[<-|[]]]]; cbn [px py]; lia.
Qed.
Definition big_square : list pt := [P 0 0; P 2000000000 1; P 1999999999 2000000001; P (-1) 2000000000].
Example C128_case_max_rounded : convex big_square /\ boxed int64 (2 ^ 105) big_square /\
  exists r, mmax_distance int64 big_square = Ok r /\ 2828427124 * 2 ^ 52 < r < 2828427127 * 2 ^ 52.
Proof.
  split; [|split].
  - split; [cbn; lia|]. intros i j k I K. cbn in K.
    assert (i < 4 /\ j < 4 /\ k < 4)%nat as (A & B & C) by lia.
    do 4 (destruct i as [|i]; [do 4 (destruct j as [|j]; [do 4 (destruct k as [|k]; [try lia; reflexivity|]); lia|]); lia|]). lia.
  - exists (-1), 0, 2000000001, 2000000001. split; [|split; [vm_compute; discriminate|vm_compute; reflexivity]].
    intros q I. repeat (destruct I as [<-|I]; [cbn [px py]; lia|]). destruct I.
  - eexists. split; [vm_compute; reflexivity|]. split; vm_compute; reflexivity.
Qed.
Print Assumptions C128_conversion.
Print Assumptions C128_nearest_rounded.
Print Assumptions C128_nearest_error.
Print Assumptions C128_max_distance_rounded.
