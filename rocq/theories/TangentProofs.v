(** Proofs about tangents of circles and bisectors: TangentModel.v. *)
From Coq Require Import QArith Qcanon List Bool Lia Lqa.
From Verif Require Import Outcome VecModel VecProofs CrossModel CrossProofs PropCross TangentModel.
Import ListNotations.
Local Open Scope Qc_scope.

(** [root] is exact where it is used. *)
Definition exact_at (root : Qc -> Qc) (x : Qc) : Prop := 0 <= root x /\ root x * root x = x.

Lemma norm2_comm p c : length p = length c -> dot (vsub p c) (vsub p c) = dot (vsub c p) (vsub c p).
Proof. intros L. change (norm2 (vsub p c) = norm2 (vsub c p)). rewrite !norm2_vsub by congruence. rewrite (dot_comm c p). ring. Qed.
Lemma touch_iff p q c r2 : length p = 2%nat -> length q = 2%nat -> length c = 2%nat ->
  norm2 (vsub q c) = r2 -> (norm2 (vsub q p) = norm2 (vsub c p) - r2 <-> dot (vsub q p) (vsub q c) = 0).
Proof.
  intros Lp Lq Lc E. destruct p as [|px [|py [|]]]; try discriminate. destruct q as [|qx [|qy [|]]]; try discriminate.
  destruct c as [|cx [|cy [|]]]; try discriminate. unfold norm2, dot, vsub in *. cbn in *. subst r2.
  set (A := (0 + (qx - cx) * (qx - cx) + (qy - cy) * (qy - cy))).
  split; intros H.
  - assert (K : (1 + 1) * (0 + (qx - px) * (qx - cx) + (qy - py) * (qy - cy))
      = (0 + (qx - px) * (qx - px) + (qy - py) * (qy - py)) - ((0 + (cx - px) * (cx - px) + (cy - py) * (cy - py)) - A)) by (unfold A; ring).
    rewrite H in K. assert (Z : (1 + 1) * (0 + (qx - px) * (qx - cx) + (qy - py) * (qy - cy)) = 0) by (rewrite K; ring).
    apply Qcmult_integral in Z as [Z|Z]; [discriminate | exact Z].
  - apply Qc_sub0. transitivity ((1 + 1) * (0 + (qx - px) * (qx - cx) + (qy - py) * (qy - cy))); [unfold A; ring | rewrite H; ring].
Qed.
Lemma sq_lt (a b : Qc) : 0 <= a -> 0 <= b -> a < b -> a * a < b * b.
Proof. intros. qnra. Qed.
Theorem tangents_outside root p c : length p = 2%nat -> length (center c) = 2%nat -> 0 <= radius c ->
  let d2 := norm2 (vsub p (center c)) in
  exact_at root d2 -> exact_at root (d2 - radius c * radius c) ->
  (forall d, d * d = d2 - radius c * radius c -> let x := circles_disc (Sp p d) c in 0 < x -> root x * root x = x) ->
  radius c * radius c < d2 ->
  exists pts, tangents root p c = Ok (Out pts 0) /\
    forall q, In q pts <-> length q = 2%nat /\ norm2 (vsub q (center c)) = radius c * radius c /\ dot (vsub q p) (vsub q (center c)) = 0.
Proof.
  intros Lp Lc R0 d2 [N1 N2] [D1 D2] X FAR. unfold tangents, norm.
  assert (W : within_sphere (root (dot (vsub p (center c)) (vsub p (center c)))) c = Outside).
  { change (dot (vsub p (center c)) (vsub p (center c))) with d2. unfold within_sphere.
    assert (L : radius c < root d2) by (rewrite <- N2 in FAR; qnra).
    replace (qlt (root d2) (radius c)) with false by (symmetry; apply qlt_false; qlra).
    now replace (qlt (radius c) (root d2)) with true by (symmetry; now apply qlt_spec). }
  rewrite W. rewrite <- (norm2_comm p (center c)) by congruence. change (dot (vsub p (center c)) (vsub p (center c))) with d2. rewrite N2.
  set (dist := root (d2 - radius c * radius c)) in *.
  assert (NE : center (Sp p dist) <> center c).
  { cbn [center]. intros E. assert (Z : d2 = 0).
    { unfold d2. rewrite E. rewrite norm2_vsub by reflexivity. unfold norm2. ring. }
    rewrite Z in FAR. qnra. }
  destruct (C84_circles root (Sp p dist) c Lp Lc NE D1 R0) as (pts & E & S).
  { intros P. apply (X dist D2 P). }
  exists pts. rewrite E. cbn [bind]. split; [reflexivity|]. intros q. rewrite S. cbn [center radius]. rewrite D2.
  assert (DC : d2 = norm2 (vsub (center c) p)) by (apply norm2_comm; congruence).
  split.
  - intros (Lq & E1 & E2). split; [exact Lq|]. split; [exact E2|]. apply (touch_iff p q (center c) _ Lp Lq Lc E2). now rewrite <- DC.
  - intros (Lq & E2 & E3). split; [exact Lq|]. split; [|exact E2]. rewrite DC. now apply (touch_iff p q (center c) _ Lp Lq Lc E2).
Qed.
(** The line through the point and a point of contact does not enter the circle. *)
Lemma tangent_line p q c r2 t : length p = 2%nat -> length q = 2%nat -> length c = 2%nat ->
  norm2 (vsub q c) = r2 -> dot (vsub q p) (vsub q c) = 0 -> r2 <= norm2 (vsub (vadd p (vscale t (vsub q p))) c).
Proof.
  intros Lp Lq Lc E H. destruct p as [|px [|py [|]]]; try discriminate. destruct q as [|qx [|qy [|]]]; try discriminate.
  destruct c as [|cx [|cy [|]]]; try discriminate. unfold norm2, dot, vsub, vadd, vscale in *. cbn in *. subst r2. apply Qc_le_sub.
  match goal with |- 0 <= ?x => replace x with ((t - 1) * (t - 1) * ((qx - px) * (qx - px) + (qy - py) * (qy - py))
    + (1 + 1) * (t - 1) * (0 + (qx - px) * (qx - cx) + (qy - py) * (qy - cy))) by ring end.
  rewrite H. replace ((1 + 1) * (t - 1) * 0) with 0 by ring. rewrite Qcplus_0_r.
  apply Qc_mul_nonneg; [apply Qc_sq_nonneg|]. apply Qc_add_nonneg; apply Qc_sq_nonneg.
Qed.
Theorem tangents_two root p c : length p = 2%nat -> length (center c) = 2%nat -> 0 < radius c ->
  let d2 := norm2 (vsub p (center c)) in
  exact_at root d2 -> exact_at root (d2 - radius c * radius c) ->
  (forall d, d * d = d2 - radius c * radius c -> let x := circles_disc (Sp p d) c in 0 < x -> root x * root x = x) ->
  radius c * radius c < d2 ->
  exists a b, tangents root p c = Ok (Out [a; b] 0) /\ a <> b.
Proof.
  intros Lp Lc R0 d2 [N1 N2] [D1 D2] X FAR. unfold tangents, norm.
  assert (W : within_sphere (root (dot (vsub p (center c)) (vsub p (center c)))) c = Outside).
  { change (dot (vsub p (center c)) (vsub p (center c))) with d2. unfold within_sphere.
    assert (L : radius c < root d2) by (rewrite <- N2 in FAR; qnra).
    replace (qlt (root d2) (radius c)) with false by (symmetry; apply qlt_false; qlra).
    now replace (qlt (radius c) (root d2)) with true by (symmetry; now apply qlt_spec). }
  rewrite W. rewrite <- (norm2_comm p (center c)) by congruence. change (dot (vsub p (center c)) (vsub p (center c))) with d2. rewrite N2.
  set (dist := root (d2 - radius c * radius c)) in *.
  specialize (X dist D2). cbv zeta in X. unfold intersect_circles. cbn [center radius].
  set (cv := vsub (center c) p). assert (CV : dot cv cv = d2) by (unfold cv; rewrite <- norm2_comm by congruence; reflexivity).
  set (off := root (circles_disc (Sp p dist) c)) in *.
  assert (DP : 0 < dist) by (clear X; qnra).
  assert (DISC : 0 < circles_disc (Sp p dist) c).
  { unfold circles_disc. cbn [center radius]. fold cv. rewrite CV. rewrite D2.
    assert (Z : d2 <> 0) by (intros Z; rewrite Z in FAR; qnra).
    replace ((d2 - radius c * radius c + radius c * radius c) / d2) with 1 by (field; exact Z).
    set (a := (d2 - radius c * radius c - radius c * radius c) / d2).
    assert (A : a * d2 = d2 - radius c * radius c - radius c * radius c) by (unfold a; field; exact Z).
    assert (A1 : a < 1) by (clearbody a; clear X D2 N2; qnra). assert (A2 : - (1) < a) by (clearbody a; clear X; qnra). clear - A1 A2. qnra. }
  specialize (X DISC). rewrite CV.
  replace (qlt d2 ((dist - radius c) * (dist - radius c))) with false by (symmetry; apply qlt_false; clear X DISC; qnra).
  replace (qlt ((dist + radius c) * (dist + radius c)) d2) with false by (symmetry; apply qlt_false; clear X DISC; qnra).
  replace (is0 d2) with false by (symmetry; apply is0_false; intros Z; rewrite Z in FAR; clear X DISC; qnra).
  replace (is0 (d2 - (dist - radius c) * (dist - radius c))) with false by (symmetry; apply is0_false; clear X DISC; intros Z; qnra).
  replace (is0 ((dist + radius c) * (dist + radius c) - d2)) with false by (symmetry; apply is0_false; clear X DISC; intros Z; qnra).
  cbn [orb bind]. do 2 eexists. split; [reflexivity|]. fold off.
  assert (O : off <> 0) by (intros Z; rewrite Z in X; rewrite <- X in DISC; clear X; qlra).
  assert (CN : degenerate cv = false).
  { apply not_true_iff_false. intros K. rewrite (degenerate_dot cv cv K) in CV. rewrite <- CV in FAR. clear X DISC. qnra. }
  assert (Lcv : length cv = 2%nat) by (unfold cv; apply len_vsub_n; auto). clearbody cv off. clear X DISC W.
  set (pr := vadd p _). assert (Lpr : length pr = 2%nat) by (unfold pr; apply len_vadd_n; [auto | apply len_scale_n; auto]). clearbody pr.
  destruct cv as [|x [|y [|]]]; try discriminate. destruct pr as [|u [|v [|]]]; try discriminate. unfold vsub, vadd, vscale. cbn.
  intros E. apply cons2_eq in E as [E1 E2].
  assert (H2 : off / (1 + 1) <> 0).
  { intros K. apply O. replace off with ((1 + 1) * (off / (1 + 1))) by (field; discriminate). rewrite K. ring. }
  assert (Y0 : off / (1 + 1) * - y = 0) by qlra. assert (X0 : off / (1 + 1) * x = 0) by qlra.
  apply Qcmult_integral in Y0 as [|Y0]; [contradiction|]. apply Qcmult_integral in X0 as [|X0]; [contradiction|].
  assert (y = 0) by qlra. subst. discriminate.
Qed.
Theorem tangents_border root p c : length p = length (center c) -> 0 <= radius c -> let d2 := norm2 (vsub p (center c)) in
  exact_at root d2 ->
  (d2 = radius c * radius c -> tangents root p c = Ok (Out [p] 1)) /\ (d2 < radius c * radius c -> tangents root p c = Ok (Out [] 0)).
Proof.
  intros L R0 d2 [N1 N2]. unfold tangents, norm. change (dot (vsub p (center c)) (vsub p (center c))) with d2. unfold within_sphere. split; intros H.
  - assert (E : root d2 = radius c) by (rewrite <- N2 in H; clear - H N1 R0; apply Qcle_antisym; qnra).
    rewrite E, qlt_irrefl. reflexivity.
  - replace (qlt (root d2) (radius c)) with true; [reflexivity|]. symmetry. apply qlt_spec. rewrite <- N2 in H. qnra.
Qed.

(** ** Polar angles *)
(** Twice the area of the triangle between direction and center: the line from [p] along [u] is at
    the distance [|area2 u cv| / |u|] from the center. *)
Theorem polar_wrong root p c : length p = 2%nat -> length (center c) = 2%nat -> 0 < radius c ->
  let d2 := norm2 (vsub p (center c)) in exact_at root d2 -> radius c * radius c < d2 ->
  exists u v, tangents_polar root p c = [u; v] /\ forall w, w = u \/ w = v ->
    norm2 w <> 0 /\ area2 w (vsub (center c) p) * area2 w (vsub (center c) p) < radius c * radius c * norm2 w.
Proof.
  intros Lp Lc R0 d2 [N1 N2] FAR. unfold tangents_polar, norm.
  assert (W : within_sphere (root (dot (vsub p (center c)) (vsub p (center c)))) c = Outside).
  { change (dot (vsub p (center c)) (vsub p (center c))) with d2. unfold within_sphere.
    assert (L : radius c < root d2) by (rewrite <- N2 in FAR; qnra).
    replace (qlt (root d2) (radius c)) with false by (symmetry; apply qlt_false; qlra).
    now replace (qlt (radius c) (root d2)) with true by (symmetry; now apply qlt_spec). }
  rewrite W. rewrite <- (norm2_comm p (center c)) by congruence. change (dot (vsub p (center c)) (vsub p (center c))) with d2.
  do 2 eexists. split; [reflexivity|]. set (cv := vsub (center c) p).
  assert (CV : norm2 cv = d2) by (unfold cv, d2, norm2; symmetry; apply norm2_comm; congruence).
  assert (Lcv : length cv = 2%nat) by (unfold cv; apply len_vsub_n; auto). clearbody cv.
  destruct cv as [|x [|y [|]]]; try discriminate. set (n := root d2) in *. set (r := radius c) in *. clearbody n r d2. clear W.
  unfold angle. cbn [angle_add angle_neg]. unfold norm2, dot, area2 in *. cbn in *. assert (CV' : d2 = x * x + y * y) by (rewrite <- CV; ring).
  assert (P : 0 < d2) by qnra.
  assert (G : forall e, e * e = r * r ->
    let a := (x * n - y * e) in let b := (x * e + y * n) in
    0 + a * a + b * b <> 0 /\ (a * y - b * x) * (a * y - b * x) < r * r * (0 + a * a + b * b)).
  { intros e Ee a b. assert (S1 : 0 + a * a + b * b = d2 * (d2 + r * r)).
    { unfold a, b. transitivity ((x * x + y * y) * (n * n + e * e)); [ring|]. now rewrite N2, Ee, <- CV'. }
    assert (S2 : (a * y - b * x) * (a * y - b * x) = r * r * (d2 * d2)).
    { unfold a, b. transitivity (e * e * ((x * x + y * y) * (x * x + y * y))); [ring|]. now rewrite Ee, <- CV'. }
    rewrite S1, S2. clear - P R0. assert (RR : 0 < r * r) by qnra. set (k := r * r) in *. clearbody k. clear R0 r.
    assert (DK : 0 < d2 * k) by qnra. assert (DD : 0 < d2 * d2) by qnra. split.
    - intros Z. qnra.
    - assert (0 < k * (d2 * k)) by qnra. qlra. }
  intros w [->| ->]; [apply (G (- r)) | apply (G r)]; ring.
Qed.
Theorem polar_border root p c : length p = 2%nat -> length (center c) = 2%nat -> 0 <= radius c ->
  let d2 := norm2 (vsub p (center c)) in exact_at root d2 -> d2 = radius c * radius c ->
  exists u, tangents_polar root p c = [u] /\ dot u (vsub p (center c)) = 0 /\ norm2 u = d2.
Proof.
  intros Lp Lc R0 d2 [N1 N2] H. unfold tangents_polar, norm. change (dot (vsub p (center c)) (vsub p (center c))) with d2. unfold within_sphere.
  assert (E : root d2 = radius c) by (rewrite <- N2 in H; clear - H N1 R0; apply Qcle_antisym; qnra).
  rewrite E, qlt_irrefl. eexists. split; [reflexivity|]. unfold angle, d2.
  destruct p as [|px [|py [|]]]; try discriminate. destruct (center c) as [|cx [|cy [|]]]; try discriminate.
  unfold norm2, dot, vsub. cbn. split; ring.
Qed.
(** Rotating and scaling [l] by the angle from [l] to [r] gives the direction of [r]. *)
Theorem angle_rotates l r : length l = 2%nat -> length r = 2%nat -> angle_add l (angle2 l r) = vscale (norm2 l) r.
Proof.
  intros Ll Lr. destruct l as [|a [|b [|]]]; try discriminate. destruct r as [|c [|d [|]]]; try discriminate.
  unfold angle2, norm2, dot, area2, vscale. cbn. apply cons2_eq. split; ring.
Qed.

(** ** Bisector *)
Theorem bisector_angles root l r : length l = length r -> exact_at root (norm2 l) -> exact_at root (norm2 r) ->
  dot (bisector root l r) l * root (norm2 r) = dot (bisector root l r) r * root (norm2 l).
Proof.
  intros L [L1 L2] [R1 R2]. unfold bisector, norm. fold (norm2 l) (norm2 r).
  rewrite !dot_vadd by (rewrite !len_scale; congruence). rewrite !dot_vscale. fold (norm2 l) (norm2 r). rewrite (dot_comm r l).
  set (nl := root (norm2 l)) in *. set (nr := root (norm2 r)) in *. rewrite <- L2, <- R2. ring.
Qed.
Theorem bisector_between root l r : length l = 2%nat -> length r = 2%nat ->
  area2 l (bisector root l r) = root (norm2 l) * area2 l r /\ area2 (bisector root l r) r = root (norm2 r) * area2 l r.
Proof.
  intros Ll Lr. unfold bisector, norm. fold (norm2 l) (norm2 r). generalize (root (norm2 l)), (root (norm2 r)). intros x y.
  destruct l as [|a [|b [|]]]; try discriminate. destruct r as [|c [|d [|]]]; try discriminate. unfold area2, vadd, vscale. cbn. split; ring.
Qed.
