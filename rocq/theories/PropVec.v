(** Vector geometry in any dimension: C52, C77 - C80. *)
From Coq Require Import QArith Qcanon List Bool Lia.
From Verif Require Import Outcome VecModel VecProofs.
Import ListNotations.
Local Open Scope Qc_scope.

(** Points of dimension [n]; [norm2 (vsub p q)] is the square of their distance. *)
Definition line_in (n : nat) (l : line) : Prop :=
  length (lbegin l) = n /\ length (lvec l) = n /\ exists x, In x (lvec l) /\ x <> 0.
Definition plane_in (n : nat) (pl : plane) : Prop :=
  length (normal pl) = n /\ exists x, In x (normal pl) /\ x <> 0.
Definition on_line (q : vec) (l : line) : Prop := exists t, q = at_ l t.
Definition on_plane (q : vec) (pl : plane) : Prop := dot (normal pl) q = pd pl.

Lemma nonzero_nondegenerate v : (exists x, In x v /\ x <> 0) -> degenerate v = false.
Proof.
  intros (x & Hx & N). destruct (degenerate v) eqn:E; auto. unfold degenerate in E.
  rewrite forallb_forall in E. apply E, is0_spec in Hx. contradiction.
Qed.
Lemma on_plane_value q pl : on_plane q pl <-> plane_value pl q = 0.
Proof.
  unfold on_plane, plane_value. split; [intros ->; ring | apply Qc_sub0].
Qed.

(** ** C52 *)
(** The projection is on the line, the difference is orthogonal to the line, and points
    of the line stay. *)
Theorem C52_project_line : forall n l p, line_in n l -> length p = n ->
  on_line (project_line p l) l /\ dot (vsub p (project_line p l)) (lvec l) = 0.
Proof.
  intros n l p (Hb & Hv & N) Hp. split; [now eexists|].
  eapply residual_orth; eauto. now apply nonzero_nondegenerate.
Qed.
Theorem C52_project_line_fixes : forall n l p, line_in n l -> on_line p l -> project_line p l = p.
Proof.
  intros n l p (Hb & Hv & N) (t & ->). eapply project_fixes; eauto. now apply nonzero_nondegenerate.
Qed.
Theorem C52_project_plane : forall n pl p, plane_in n pl -> length p = n ->
  on_plane (project_plane p pl) pl /\ exists k, vsub p (project_plane p pl) = vscale k (normal pl).
Proof.
  intros n pl p (Hn & N) Hp. apply nonzero_nondegenerate in N. split.
  - apply on_plane_value. eapply project_plane_on; eauto.
  - exists (plane_value pl p / dot (normal pl) (normal pl)). unfold project_plane. coords n. ring.
Qed.
Theorem C52_project_plane_fixes : forall n pl p, plane_in n pl -> length p = n -> on_plane p pl ->
  project_plane p pl = p.
Proof.
  intros n pl p (Hn & N) Hp O. eapply project_plane_fixes; eauto.
  - now apply nonzero_nondegenerate.
  - now apply on_plane_value.
Qed.
(** Reflecting twice gives the point back, the mirror is fixed, distances stay. *)
Theorem C52_reflect_line : forall n l, line_in n l ->
  (forall p, length p = n -> reflect_line (reflect_line p l) l = p)
  /\ (forall p, on_line p l -> reflect_line p l = p)
  /\ forall p q, length p = n -> length q = n ->
       norm2 (vsub (reflect_line p l) (reflect_line q l)) = norm2 (vsub p q).
Proof.
  intros n l (Hb & Hv & N). assert (D := nonzero_nondegenerate _ N). split; [|split].
  - intros. eapply reflect_line_invol; eauto.
  - intros p O. unfold reflect_line. rewrite (C52_project_line_fixes n) by (repeat split; auto).
    destruct O as (t & ->). coords n. ring.
  - intros. eapply reflect_line_isometry; eauto.
Qed.
(** The midpoint of a point and its mirror image is on the mirror. *)
Theorem C52_reflect_line_midpoint : forall n l p, line_in n l -> length p = n ->
  vadd p (reflect_line p l) = vscale (1 + 1) (project_line p l)
  /\ dot (vsub p (reflect_line p l)) (lvec l) = 0.
Proof.
  intros n l p (Hb & Hv & N) Hp. assert (D := nonzero_nondegenerate _ N).
  split; [unfold reflect_line, project_line; coords n; ring|].
  assert (E : vsub p (reflect_line p l) = vscale (1 + 1) (vsub p (project_line p l))).
  { unfold reflect_line, project_line. coords n. ring. }
  rewrite E, dot_vscale, (residual_orth l n Hb Hv D p Hp). ring.
Qed.
Theorem C52_reflect_plane : forall n pl, plane_in n pl ->
  (forall p, length p = n -> reflect_plane (reflect_plane p pl) pl = p)
  /\ (forall p, length p = n -> on_plane p pl -> reflect_plane p pl = p)
  /\ forall p q, length p = n -> length q = n ->
       norm2 (vsub (reflect_plane p pl) (reflect_plane q pl)) = norm2 (vsub p q).
Proof.
  intros n pl (Hn & N). assert (D := nonzero_nondegenerate _ N). split; [|split].
  - intros. eapply reflect_plane_invol; eauto.
  - intros p Hp O. unfold reflect_plane. rewrite (C52_project_plane_fixes n) by (repeat split; auto).
    coords n. ring.
  - intros. eapply reflect_plane_isometry; eauto.
Qed.
Theorem C52_reflect_point : forall n c, length c = n ->
  (forall p, length p = n -> reflect_point (reflect_point p c) c = p)
  /\ reflect_point c c = c
  /\ forall p q, length p = n -> length q = n ->
       norm2 (vsub (reflect_point p c) (reflect_point q c)) = norm2 (vsub p q).
Proof.
  intros n c Hc. unfold reflect_point, project_point. split; [|split].
  - intros. coords n. ring.
  - coords n. ring.
  - intros p q Hp Hq. assert (E : vsub (vsub (vscale (1 + 1) c) p) (vsub (vscale (1 + 1) c) q) = vsub q p).
    { coords n. ring. }
    rewrite E, !norm2_vsub by congruence. rewrite (dot_comm q p). ring.
Qed.
(** Finding: the rotation formula has the wrong sign; it rotates exactly the points for
    which the sine of the angle or the second coordinate is zero. *)
Theorem C52_rotate_refuted : forall x y s c,
  rotate [x; y] s c = [c * x - s * y; s * x + c * y] <-> s * y = 0.
Proof.
  intros. unfold rotate. rewrite !dot_cons, !dot_nil_l. split.
  - intros H. assert (H1 := f_equal (fun v => nth 0 v 0) H). cbn [nth] in H1. assert (K : (1 + 1) * (s * y) = 0).
    { replace ((1 + 1) * (s * y)) with ((c * x + (s * y + 0)) - (c * x - s * y)) by ring. rewrite H1. ring. }
    destruct (Qcmult_integral _ _ K) as [A|A]; [discriminate|exact A].
  - intros H. f_equal; [|f_equal; ring]. replace (c * x + (s * y + 0)) with (c * x + s * y) by ring.
    rewrite H. ring.
Qed.
Theorem C52_rotate_norm_refuted :
  exists s c p, s * s + c * c = 1 /\ norm2 (rotate p s c) <> norm2 p.
Proof.
  exists (Q2Qc (3 # 5)), (Q2Qc (4 # 5)), [1; 1]. split; [now apply Qc_is_canon|].
  intros H. vm_compute in H. discriminate H.
Qed.
Example C52_case :
  let l := L [1; 0] [1; 1] Free Free in
  line_in 2 l /\ project_line [1; 1 + 1] l = [1 + 1; 1] /\ reflect_line [1; 1 + 1] l = [1 + 1 + 1; 0].
Proof.
  cbv zeta. repeat split; try (apply vec_ext_lt; [reflexivity|]; intros [|[|i]] Hi; cbn in Hi; try lia; now apply Qc_is_canon).
  exists 1. split; [now left | discriminate].
Qed.
Example C52_plane_case :
  let pl := Pl [0; 0; 1] (1 + 1) in
  plane_in 3 pl /\ project_plane [1; 1; 1] pl = [1; 1; 1 + 1] /\ reflect_plane [1; 1; 1] pl = [1; 1; 1 + 1 + 1].
Proof.
  cbv zeta. repeat split; try (apply vec_ext_lt; [reflexivity|]; intros [|[|[|i]]] Hi; cbn in Hi; try lia; now apply Qc_is_canon).
  exists 1. split; [now (right; right; left) | discriminate].
Qed.
Print Assumptions C52_project_line.
Print Assumptions C52_project_line_fixes.
Print Assumptions C52_project_plane.
Print Assumptions C52_project_plane_fixes.
Print Assumptions C52_reflect_line.
Print Assumptions C52_reflect_line_midpoint.
Print Assumptions C52_reflect_plane.
Print Assumptions C52_reflect_point.
Print Assumptions C52_rotate_refuted.
Print Assumptions C52_rotate_norm_refuted.

(** ** C77: nearest point and distance *)
(** The point returned for a line, ray or segment belongs to it (ends included) and no
    other point of it is nearer. *)
Theorem C77_nearest : forall n l p, line_in n l -> length p = n ->
  exists t, nearest_line p l = at_ l t /\ on_kind l t
    /\ forall t', on_kind l t' -> norm2 (vsub p (at_ l t)) <= norm2 (vsub p (at_ l t')).
Proof.
  intros n l p (Hb & Hv & N) Hp. eapply nearest_min; eauto. now apply nonzero_nondegenerate.
Qed.
(** The nearest point is unique. *)
Theorem C77_unique : forall n l p t u, line_in n l -> length p = n ->
  on_kind l t -> on_kind l u ->
  (forall t', on_kind l t' -> norm2 (vsub p (at_ l t)) <= norm2 (vsub p (at_ l t'))) ->
  (forall t', on_kind l t' -> norm2 (vsub p (at_ l u)) <= norm2 (vsub p (at_ l t'))) -> t = u.
Proof.
  intros n l p t u (Hb & Hv & N) Hp Kt Ku Mt Mu. assert (D := nonzero_nondegenerate _ N).
  assert (E : norm2 (vsub p (at_ l t)) = norm2 (vsub p (at_ l u))) by (apply Qcle_antisym; auto).
  (* the middle is nearer unless they coincide *)
  set (h := (t + u) / (1 + 1)).
  assert (H2 : (1 + 1) <> 0) by discriminate.
  assert (Kh : on_kind l h).
  { destruct Kt as [A1 A2], Ku as [B1 B2]. unfold h. split; intros F.
    - unfold Qcdiv. apply Qc_mul_nonneg; [now apply Qc_add_nonneg; auto | discriminate].
    - apply Qc_le_sub. replace (1 - (t + u) / (1 + 1)) with (((1 - t) + (1 - u)) * / (1 + 1)) by (field; auto).
      apply Qc_mul_nonneg; [|discriminate].
      apply Qc_add_nonneg; apply -> Qcle_minus_iff; auto. }
  specialize (Mt h Kh). rewrite (dist_split l n Hb Hv D p t Hp), (dist_split l n Hb Hv D p u Hp) in E.
  rewrite (dist_split l n Hb Hv D p t Hp), (dist_split l n Hb Hv D p h Hp) in Mt.
  assert (VP := vv_pos l D).
  set (s := project_scalar p l) in *. set (vv := dot (lvec l) (lvec l)) in *.
  set (b := norm2 (vsub p (project_line p l))) in *.
  assert (E' : ((s - t) * (s - t) - (s - u) * (s - u)) * vv = 0).
  { apply Qc_sub0. replace (((s - t) * (s - t) - (s - u) * (s - u)) * vv - 0)
      with ((b + (s - t) * (s - t) * vv) - (b + (s - u) * (s - u) * vv)) by ring. rewrite E. ring. }
  assert (Vn := vv_neq l D). fold vv in Vn.
  destruct (Qcmult_integral _ _ E') as [E2|]; [|contradiction].
  assert (E3 : (u - t) * (s + s - t - u) = 0) by (rewrite <- E2; ring).
  destruct (Qcmult_integral _ _ E3) as [Z|Z]; [symmetry; now apply Qc_sub0|].
  (* s is in the middle: distance zero at h *)
  assert (Sh : s = h).
  { unfold h. apply Qc_sub0. replace (s - (t + u) / (1 + 1)) with ((s + s - t - u) / (1 + 1)) by (field; auto).
    rewrite Z. field. auto. }
  rewrite <- Sh in Mt.
  assert (L : (s - t) * (s - t) * vv <= 0).
  { replace ((s - t) * (s - t) * vv) with ((b + (s - t) * (s - t) * vv) + - b) by ring.
    replace 0 with ((b + (s - s) * (s - s) * vv) + - b) by ring. apply Qcplus_le_compat; auto. apply Qcle_refl. }
  assert (L0 : (s - t) * (s - t) * vv = 0).
  { apply Qcle_antisym; auto. apply Qc_mul_nonneg; [apply Qc_sq_nonneg | now apply Qclt_le_weak]. }
  destruct (Qcmult_integral _ _ L0) as [L1|]; [|contradiction].
  assert (St : s = t) by (apply Qc_sub0; destruct (Qcmult_integral _ _ L1); auto).
  rewrite St in Z. symmetry. apply Qc_sub0. replace (u - t) with (- (t + t - t - u)) by ring. rewrite Z. ring.
Qed.
(** In the plane the distance is the distance to the nearest point. *)
Theorem C77_distance : forall l p, line_in 2 l -> length p = 2%nat ->
  distance2_line p l = norm2 (vsub p (nearest_line p l)).
Proof.
  intros l p (Hb & Hv & N) Hp. apply distance2_nearest; auto. now apply nonzero_nondegenerate.
Qed.
Theorem C77_plane : forall n pl p, plane_in n pl -> length p = n ->
  distance2_plane p pl = Ok (norm2 (vsub p (project_plane p pl)))
  /\ forall q, length q = n -> on_plane q pl -> norm2 (vsub p (project_plane p pl)) <= norm2 (vsub p q).
Proof.
  intros n pl p (Hn & N) Hp. assert (D := nonzero_nondegenerate _ N). split.
  - unfold distance2_plane. rewrite D. f_equal.
    assert (E : vsub p (project_plane p pl) = vscale (plane_value pl p / dot (normal pl) (normal pl)) (normal pl)).
    { unfold project_plane. coords n. ring. }
    rewrite E. unfold norm2. rewrite dot_vscale, (dot_comm (normal pl) (vscale _ _)), dot_vscale. assert (V := nn_neq pl D). field. exact V.
  - intros q Hq O. eapply project_plane_min; eauto. now apply on_plane_value.
Qed.
Example C77_case :
  let l := L [0; 0] [1; 0] Closed Closed in
  nearest_line [1 + 1; 1] l = [1; 0] /\ distance2_line [1 + 1; 1] l = 1 + 1 /\ nearest_line [- (1); 1] l = [0; 0].
Proof.
  cbv zeta. repeat split; try (apply vec_ext_lt; [reflexivity|]; intros [|[|i]] Hi; cbn in Hi; try lia; now apply Qc_is_canon).
Qed.
Print Assumptions C77_nearest.
Print Assumptions C77_unique.
Print Assumptions C77_distance.
Print Assumptions C77_plane.

(** ** C78: inversion in a sphere *)
Theorem C78_invert : forall n c p r, length c = n -> length p = n -> p <> c -> r <> 0 ->
  exists q, invert_sphere p c r = Ok q /\ length q = n /\ q <> c
    /\ invert_sphere q c r = Ok p
    /\ (exists k, 0 < k /\ vsub q c = vscale k (vsub p c))
    /\ norm2 (vsub p c) * norm2 (vsub q c) = r * r * (r * r).
Proof.
  intros n c p r Hc Hp N R. set (w := vsub p c).
  assert (Lw : length w = n) by (unfold w; len_one).
  assert (Rr : r * r <> 0) by (intros H; destruct (Qcmult_integral _ _ H); auto).
  assert (Rp : 0 < r * r).
  { destruct (Qcle_lt_or_eq _ _ (Qc_sq_nonneg r)) as [H|H]; auto. exfalso. now apply Rr. }
  assert (D : degenerate w = false).
  { destruct (degenerate w) eqn:E; auto. exfalso. apply N. apply (vec_ext_n n); auto. intros i Hi.
    unfold degenerate in E. rewrite forallb_forall in E.
    assert (K : nth i w 0 = 0) by (apply is0_spec, E, nth_In; lia).
    unfold w in K. rewrite (nth_vsub n) in K by auto. now apply Qc_sub0. }
  assert (V := dot_pos w D).
  assert (Vp : 0 < dot w w).
  { destruct (Qcle_lt_or_eq _ _ (dot_nonneg w)) as [H|H]; auto. exfalso. now apply V. }
  set (k := r * r / dot w w).
  assert (Kp : 0 < k).
  { unfold k, Qcdiv. rewrite <- (Qcmult_0_l (/ dot w w)). apply Qcmult_lt_compat_r; auto.
    destruct (Qclt_le_dec 0 (/ dot w w)) as [H|H]; auto. exfalso.
    assert (M : / dot w w * dot w w <= 0 * dot w w) by (apply Qcmult_le_compat_r; auto; now apply Qclt_le_weak).
    rewrite Qcmult_0_l, Qcmult_comm, Qcmult_inv_r in M by auto. now apply M. }
  assert (Kn : k <> 0) by (intros H; rewrite H in Kp; now apply Qclt_not_eq in Kp).
  exists (vadd c (vscale k w)).
  assert (Inv : invert_sphere p c r = Ok (vadd c (vscale k w))).
  { unfold invert_sphere, invert. fold w. rewrite D. reflexivity. }
  assert (Sub : vsub (vadd c (vscale k w)) c = vscale k w).
  { apply vsub_vadd. rewrite len_scale. congruence. }
  assert (Nq : vadd c (vscale k w) <> c).
  { intros H. assert (D' := degenerate_scale k w Kn). rewrite <- Sub, H, D in D'.
    assert (degenerate (vsub c c) = true); [|congruence].
    unfold degenerate. rewrite forallb_forall. intros x Hx. apply (In_nth _ _ 0) in Hx.
    destruct Hx as (i & Hi & <-). assert (length (vsub c c) = n) by len_one.
    rewrite (nth_vsub n) by (auto; lia). apply is0_spec. ring. }
  split; [exact Inv|]. split; [len_one|]. split; [exact Nq|]. split; [|split].
  - unfold invert_sphere, invert. rewrite Sub, (degenerate_scale k w Kn), D. cbn [bind].
    f_equal. rewrite vscale_vscale, dot_vscale, (dot_comm w (vscale k w)), dot_vscale.
    assert (E : r * r / (k * (k * dot w w)) * k = 1).
    { unfold k. field. auto. }
    rewrite E, vscale_1. unfold w. apply vadd_vsub. congruence.
  - exists k. auto.
  - rewrite Sub. unfold norm2. rewrite dot_vscale, (dot_comm w (vscale k w)), dot_vscale. fold w.
    unfold k. field. auto.
Qed.
(** Points of the sphere stay. *)
Theorem C78_fixes_sphere : forall n c p r, length c = n -> length p = n -> r <> 0 ->
  norm2 (vsub p c) = r * r -> invert_sphere p c r = Ok p.
Proof.
  intros n c p r Hc Hp R E. unfold invert_sphere, invert.
  assert (Rr : r * r <> 0) by (intros H; destruct (Qcmult_integral _ _ H); auto).
  destruct (degenerate (vsub p c)) eqn:D.
  - exfalso. apply Rr. rewrite <- E. now apply degenerate_dot.
  - cbn [bind]. f_equal. unfold norm2 in E. rewrite E. replace (r * r / (r * r)) with 1 by (field; auto).
    rewrite vscale_1. apply vadd_vsub. congruence.
Qed.
(** The centre is rejected. *)
Theorem C78_center : forall c r, invert_sphere c c r = AssertFail.
Proof.
  intros c r. unfold invert_sphere, invert.
  assert (D : degenerate (vsub c c) = true).
  { unfold degenerate. rewrite forallb_forall. intros x Hx. apply (In_nth _ _ 0) in Hx.
    destruct Hx as (i & Hi & <-). assert (length (vsub c c) = length c) by (apply len_vsub_n; auto).
    rewrite (nth_vsub (length c)) by (auto; lia). apply is0_spec. ring. }
  now rewrite D.
Qed.
Example C78_case : exists q, invert_sphere [1 + 1 + 1; 1] [1; 1] 1 = Ok q /\ q = [1 + 1 / (1 + 1); 1].
Proof.
  eexists. split; [reflexivity|]. apply vec_ext_lt; [reflexivity|].
  intros [|[|i]] Hi; cbn in Hi; try lia; now apply Qc_is_canon.
Qed.
Print Assumptions C78_invert.
Print Assumptions C78_fixes_sphere.
Print Assumptions C78_center.

(** ** C79: collinear vectors in any dimension *)
Theorem C79_collinear : forall l r, length l = length r ->
  collinear_n l r = true <-> exists k, r = vscale k l.
Proof. exact collinear_n_spec. Qed.
(** For non-zero vectors it does not depend on the order. *)
Theorem C79_symmetric : forall l r, length l = length r ->
  (exists x, In x l /\ x <> 0) -> (exists x, In x r /\ x <> 0) -> collinear_n l r = collinear_n r l.
Proof.
  assert (H : forall l r, length l = length r -> (exists x, In x r /\ x <> 0) ->
                collinear_n l r = true -> collinear_n r l = true).
  { intros l r E N C. apply collinear_n_spec in C; auto. destruct C as (k & ->).
    apply collinear_n_spec; [now rewrite len_scale|]. exists (/ k). rewrite vscale_vscale.
    assert (k <> 0).
    { intros ->. destruct N as (x & Hx & Nx). apply in_map_iff in Hx. destruct Hx as (y & <- & _).
      apply Nx. ring. }
    rewrite Qcmult_comm, Qcmult_inv_r, vscale_1 by auto. reflexivity. }
  intros l r E Nl Nr. destruct (collinear_n l r) eqn:A, (collinear_n r l) eqn:B; auto.
  - rewrite H in B; auto.
  - rewrite H in A; auto.
Qed.
(** Finding: the zero vector is collinear with every vector when it comes second, and
    with none but itself when it comes first. *)
Theorem C79_zero_refuted : exists z v, length z = length v /\ collinear_n v z = true /\ collinear_n z v = false.
Proof. exists [0; 0; 0], [1; 0; 0]. repeat split; vm_compute; reflexivity. Qed.
Example C79_case : collinear_n [0; 1; 1 + 1] [0; 1 + 1; 1 + 1 + 1 + 1] = true /\ collinear_n [0; 1; 1 + 1] [0; 1; 1] = false.
Proof. split; vm_compute; reflexivity. Qed.
Print Assumptions C79_collinear.
Print Assumptions C79_symmetric.
Print Assumptions C79_zero_refuted.

(** ** C80: planes *)
(** Planes made from points contain these points. *)
Theorem C80_make_plane2d : forall a b, length a = 2%nat -> length b = 2%nat ->
  on_plane a (make_plane2d a b) /\ on_plane b (make_plane2d a b)
  /\ (a <> b -> plane_in 2 (make_plane2d a b)).
Proof.
  intros a b Ha Hb. destruct a as [|a0 [|a1 [|]]]; try discriminate. destruct b as [|b0 [|b1 [|]]]; try discriminate.
  unfold on_plane, make_plane2d, make_plane. cbn [normal pd vsub zip perpendicular].
  rewrite !dot_cons, !dot_nil_l. split; [reflexivity|]. split; [ring|].
  intros N. split; [reflexivity|]. cbn [normal].
  destruct (Qc_eq_dec (b0 - a0) 0) as [E0|E0].
  - destruct (Qc_eq_dec (b1 - a1) 0) as [E1|E1].
    + exfalso. apply N. rewrite (Qc_sub0 _ _ E0), (Qc_sub0 _ _ E1). reflexivity.
    + exists (- (b1 - a1)). split; [now left|]. intros H. apply E1.
      replace (b1 - a1) with (- - (b1 - a1)) by ring. rewrite H. ring.
  - exists (b0 - a0). split; [right; now left | exact E0].
Qed.
Theorem C80_make_plane3d : forall a b c, length a = 3%nat -> length b = 3%nat -> length c = 3%nat ->
  on_plane a (make_plane3d a b c) /\ on_plane b (make_plane3d a b c) /\ on_plane c (make_plane3d a b c).
Proof.
  intros a b c Ha Hb Hc. destruct a as [|a0 [|a1 [|a2 [|]]]]; try discriminate.
  destruct b as [|b0 [|b1 [|b2 [|]]]]; try discriminate.
  destruct c as [|c0 [|c1 [|c2 [|]]]]; try discriminate.
  unfold on_plane, make_plane3d, make_plane. cbn [normal pd vsub zip cross3].
  rewrite !dot_cons, !dot_nil_l. repeat split; ring.
Qed.
(** A point is on it exactly if it is coplanar with the three points: the volume they span is zero. *)
Theorem C80_coplanar : forall a0 a1 a2 b0 b1 b2 c0 c1 c2 x y z,
  on_plane [x; y; z] (make_plane3d [a0; a1; a2] [b0; b1; b2] [c0; c1; c2]) <->
  (b0 - a0) * ((c1 - a1) * (z - a2) - (c2 - a2) * (y - a1)) - (b1 - a1) * ((c0 - a0) * (z - a2) - (c2 - a2) * (x - a0))
  + (b2 - a2) * ((c0 - a0) * (y - a1) - (c1 - a1) * (x - a0)) = 0.
Proof.
  intros. unfold on_plane, make_plane3d, make_plane. cbn [normal pd vsub zip cross3]. rewrite !dot_cons, !dot_nil_l.
  match goal with |- ?l = ?r <-> ?m = 0 => set (w := l); set (u := r); set (v := m) end. assert (E : w - u = v) by (unfold w, u, v; ring). split; intros H.
  - rewrite <- E, H. ring.
  - rewrite H in E. replace w with (w - u + u) by ring. rewrite E. ring.
Qed.
Example C80_coplanar_case : ~ on_plane [0; 0; 0] (make_plane3d [1; 0; 0] [0; 1; 0] [0; 0; 1]).
Proof. rewrite C80_coplanar. vm_compute. discriminate. Qed.
(** Non-degenerate planes cross exactly if they have a common point. *)
Theorem C80_crosses : forall n l r, plane_in n l -> plane_in n r ->
  exists b, crosses_planes l r = Ok b
    /\ (b = true <-> exists p, length p = n /\ on_plane p l /\ on_plane p r).
Proof.
  intros n l r (Hl & Nl) (Hr & Nr).
  destruct (crosses_planes_spec l r n Hl Hr (nonzero_nondegenerate _ Nl) (nonzero_nondegenerate _ Nr)) as (b & E & H).
  exists b. split; auto. rewrite H. split; intros (p & A & B & C); exists p; repeat split; auto; now apply on_plane_value.
Qed.
(** A plane with a zero normal fails the assertion, on either side. *)
Theorem C80_crosses_degenerate : forall l r,
  (forall x, In x (normal l) -> x = 0) \/ (forall x, In x (normal r) -> x = 0) ->
  crosses_planes l r = AssertFail.
Proof.
  assert (D : forall v, (forall x, In x v -> x = 0) -> degenerate v = true).
  { intros v H. unfold degenerate. apply forallb_forall. intros x Hx. rewrite (H x Hx). reflexivity. }
  intros l r [H|H]; unfold crosses_planes; rewrite (D _ H), ?orb_true_r; reflexivity.
Qed.
(** Finding: a plane and a sphere are reported to cross when they are disjoint (or touch),
    and not when the plane cuts the sphere. *)
Theorem C80_sphere_refuted :
  exists pl c r, plane_in 3 pl /\ length c = 3%nat /\ 0 < r
    /\ crosses_plane_sphere pl c r = false
    /\ exists p, length p = 3%nat /\ on_plane p pl /\ norm2 (vsub p c) = r * r.
Proof.
  exists (Pl [0; 0; 1] 0), [0; 0; 0], 1. split; [split; [reflexivity|]; exists 1; split; [now (right; right; left) | discriminate]|].
  split; [reflexivity|]. split; [reflexivity|]. split; [vm_compute; reflexivity|].
  exists [1; 0; 0]. split; [reflexivity|]. split; now apply Qc_is_canon.
Qed.
Theorem C80_sphere_disjoint_refuted : forall n pl c r, plane_in n pl -> length c = n ->
  (forall p, length p = n -> on_plane p pl -> r * r < norm2 (vsub p c)) ->
  crosses_plane_sphere pl c r = true.
Proof.
  intros n pl c r (Hn & N) Hc H. assert (D := nonzero_nondegenerate _ N). assert (V := nn_neq pl D).
  specialize (H (project_plane c pl) (len_project_plane pl n Hn c Hc)).
  assert (On : on_plane (project_plane c pl) pl) by (apply on_plane_value; eapply project_plane_on; eauto).
  specialize (H On). unfold crosses_plane_sphere. apply negb_true_iff, qlt_false.
  assert (E : vsub (project_plane c pl) c = vscale (- (plane_value pl c / dot (normal pl) (normal pl))) (normal pl)).
  { unfold project_plane. coords n. ring. }
  rewrite E in H. unfold norm2 in H. rewrite dot_vscale, (dot_comm (normal pl) (vscale _ _)), dot_vscale in H.
  set (nn := dot (normal pl) (normal pl)) in *. set (x := plane_value pl c) in *.
  replace (x * x) with ((- (x / nn) * (- (x / nn) * nn)) * nn) by (field; exact V).
  apply Qcmult_le_compat_r; [now apply Qclt_le_weak | apply dot_nonneg].
Qed.
Example C80_case :
  crosses_planes (Pl [1; 0; 0] 1) (Pl [1 + 1; 0; 0] (1 + 1)) = Ok true
  /\ crosses_planes (Pl [1; 0; 0] 1) (Pl [1 + 1; 0; 0] 1) = Ok false
  /\ crosses_planes (Pl [1; 0; 0] 1) (Pl [0; 1; 0] 1) = Ok true.
Proof. repeat split; vm_compute; reflexivity. Qed.
Print Assumptions C80_make_plane2d.
Print Assumptions C80_make_plane3d.
Print Assumptions C80_coplanar.
Print Assumptions C80_crosses.
Print Assumptions C80_crosses_degenerate.
Print Assumptions C80_sphere_refuted.
Print Assumptions C80_sphere_disjoint_refuted.
