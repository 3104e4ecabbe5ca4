(** Intersections: C81 - C85. *)
From Coq Require Import QArith Qcanon List Bool Lia Lqa Sorted.
From Verif Require Import Outcome VecModel VecProofs CrossModel CrossProofs PropVec.
Import ListNotations.
Local Open Scope Qc_scope.

(** The points of a line, ray or segment [l] ([contains], CrossProofs.v) are
    [begin + t * vector] for the parameters [t] which the kinds of the ends allow. *)

(** ** C81: two lines, rays or segments in the plane *)
(** If there is a common point, exactly one line is output and its points are the common points. *)
Theorem C81_intersect : forall l r, line_in 2 l -> line_in 2 r ->
  (exists q, contains l q /\ contains r q) ->
  exists m, intersect l r = [m] /\ forall q, contains m q <-> contains l q /\ contains r q.
Proof.
  intros l r (A1 & A2 & A3) (B1 & B2 & B3).
  apply intersect_spec; try split; auto using nonzero_nondegenerate.
Qed.
(** No output is never wrong. *)
Theorem C81_none : forall l r, line_in 2 l -> line_in 2 r -> intersect l r = [] ->
  forall q, ~ (contains l q /\ contains r q).
Proof.
  intros l r (A1 & A2 & A3) (B1 & B2 & B3).
  apply intersect_spec; try split; auto using nonzero_nondegenerate.
Qed.
(** Lines which are not parallel, or have no open ends: crosses exactly if there is a common point. *)
Theorem C81_crosses : forall l r, line_in 2 l -> line_in 2 r ->
  area2 (lvec l) (lvec r) <> 0
  \/ kbegin l <> Open /\ kend l <> Open /\ kbegin r <> Open /\ kend r <> Open ->
  crosses_lines l r = true <-> exists q, contains l q /\ contains r q.
Proof.
  intros l r (A1 & A2 & A3) (B1 & B2 & B3) H.
  destruct (intersect_spec l r (conj A1 A2) (conj B1 B2) (nonzero_nondegenerate _ A3) (nonzero_nondegenerate _ B3)) as (C1 & C2 & C3).
  unfold crosses_lines. split.
  - intros K. apply C3.
    + intros E. rewrite E in K. discriminate.
    + destruct H as [H|H]; auto. left. unfold det. intros Z. apply H. rewrite area2_swap, Z. ring.
  - intros D. destruct (C2 D) as (m & -> & _). reflexivity.
Qed.

(** Lines which are not parallel: at most one parameter is output, that of the common point. *)
Theorem C81_scalar : forall l r, line_in 2 l -> line_in 2 r ->
  (length (intersect_scalar l r) <= 1)%nat
  /\ forall t, In t (intersect_scalar l r) <->
       area2 (lvec l) (lvec r) <> 0 /\ inside l t /\ contains r (at_ l t).
Proof.
  intros l r (A1 & A2 & A3) (B1 & B2 & B3). split; [apply intersect_scalar_one|]. intros t.
  rewrite intersect_scalar_spec by (split; auto). unfold det, contains. rewrite (area2_swap (lvec r)).
  split; intros (N & I & s & H); (split; [intros Z; apply N; rewrite ?Z; qlra|]); (split; [exact I|]); exists s; tauto.
Qed.
(** Finding: collinear segments which have no common point because of an open end are
    reported to cross, depending on their position. *)
Theorem C81_open_refuted :
  exists l r, line_in 2 l /\ line_in 2 r /\ valid_kind l = true /\ valid_kind r = true
    /\ crosses_lines l r = true /\ forall q, ~ (contains l q /\ contains r q).
Proof.
  exists (L [1; 0] [1; 0] Closed Closed), (L [0; 0] [1; 0] Open Open).
  assert (N : exists x, In x [1; 0] /\ x <> 0) by (exists 1; split; [now left | discriminate]).
  split; [repeat split; auto|]. split; [repeat split; auto|]. split; [reflexivity|]. split; [reflexivity|].
  split; [vm_compute; reflexivity|]. intros q [(t & -> & I1 & I2) (s & E & J1 & J2)].
  cbn [kbegin kend begin_ok end_ok] in *. unfold at_ in E. cbn [lbegin lvec vadd vscale zip map] in E.
  apply cons2_eq in E. destruct E as [E _]. qlra.
Qed.
(** The other order of the same two segments along the line is answered correctly. *)
Example C81_open_case :
  crosses_lines (L [0; 0] [1; 0] Closed Closed) (L [1; 0] [1; 0] Open Open) = false.
Proof. vm_compute. reflexivity. Qed.
(** Finding: a segment of zero length as the second argument crosses segments it is not on. *)
Theorem C81_degenerate_refuted :
  exists l r, line_in 2 l /\ length (lbegin r) = 2%nat /\ lvec r = [0; 0]
    /\ crosses_lines l r = true /\ crosses_lines r l = false /\ forall q, ~ (contains l q /\ contains r q).
Proof.
  exists (L [0; 0] [1 + 1; 0] Closed Closed), (L [1; 1] [0; 0] Closed Closed).
  split; [repeat split; auto; exists (1 + 1); split; [now left | discriminate]|].
  split; [reflexivity|]. split; [reflexivity|]. split; [vm_compute; reflexivity|]. split; [vm_compute; reflexivity|].
  intros q [(t & -> & I1 & I2) (s & E & J1 & J2)].
  unfold at_ in E. cbn [lbegin lvec vadd vscale zip map] in E.
  apply cons2_eq in E. destruct E as [_ E]. qlra.
Qed.
Example C81_case :
  let l := L [0; 0] [1 + 1; 1 + 1] Closed Closed in
  let r := L [0; 1 + 1] [1 + 1; - (1 + 1)] Open Open in
  contains l [1; 1] /\ contains r [1; 1] /\ intersect_general l r = [[1; 1]].
Proof.
  cbv zeta. split; [|split].
  - exists (/ (1 + 1)). split; [apply cons2_eq; split; now apply Qc_is_canon|]. split; discriminate.
  - exists (/ (1 + 1)). split; [apply cons2_eq; split; now apply Qc_is_canon|]. split; reflexivity.
  - unfold intersect_general. cbn [map]. vm_compute. repeat f_equal; now apply Qc_is_canon.
Qed.
Example C81_overlap_case :
  let l := L [0; 0] [1 + 1; 0] Closed Closed in
  let r := L [1; 0] [- (1 + 1); 0] Open Free in
  exists m, intersect l r = [m] /\ lbegin m = [1; 0] /\ lend m = [0; 0] /\ kbegin m = Open /\ kend m = Closed.
Proof.
  cbv zeta. eexists. split; [vm_compute; reflexivity|]. repeat split; try reflexivity;
    apply cons2_eq; split; now apply Qc_is_canon.
Qed.
Print Assumptions C81_intersect.
Print Assumptions C81_none.
Print Assumptions C81_crosses.
Print Assumptions C81_scalar.
Print Assumptions C81_open_refuted.
Print Assumptions C81_degenerate_refuted.

(** ** C82: point on a line, ray or segment *)
Theorem C82_within : forall l p, line_in 2 l -> length p = 2%nat -> valid_kind l = true ->
  (within_line p l = Border <-> contains l p) /\ within_line p l <> Inside.
Proof.
  intros l p (A1 & A2 & A3) Hp V. split.
  - apply (within_line_spec l p 2); auto using nonzero_nondegenerate.
  - unfold within_line. repeat match goal with |- context [if ?c then _ else _] => destruct c end; discriminate.
Qed.
Theorem C82_within_n : forall n l p, line_in n l -> length p = n -> valid_kind l = true -> p <> lbegin l ->
  within_line p l = Border <-> contains l p.
Proof.
  intros n l p (A1 & A2 & A3) Hp V N.
  apply (within_line_spec l p n); auto using nonzero_nondegenerate.
Qed.
(** A line through two equal points is that point. *)
Theorem C82_point : forall n l p, length (lbegin l) = n -> (forall x, In x (lvec l) -> x = 0) -> length p = n ->
  (within_line p l = Border <-> p = lbegin l) /\ within_line p l <> Inside.
Proof.
  intros n l p B V P. assert (D : degenerate (lvec l) = true).
  { unfold degenerate. apply forallb_forall. intros x I. rewrite (V x I). reflexivity. }
  unfold within_line. rewrite D. destruct (veq p (lbegin l)) eqn:E.
  - apply veq_spec in E; [|congruence]. split; [tauto|discriminate].
  - split; [|discriminate]. split; [discriminate|]. intros Q. apply veq_spec in Q; congruence.
Qed.
(** Finding: in space the begin of a line is reported outside of the line. *)
Theorem C82_begin_refuted : forall n l, line_in n l -> n <> 2%nat -> within_line (lbegin l) l = Outside.
Proof.
  intros n l (A1 & A2 & A3) N. unfold within_line. rewrite (nonzero_nondegenerate _ A3).
  assert (E : collinear (vsub (lbegin l) (lbegin l)) (lvec l) = false); [|now rewrite E].
  assert (Ls : length (vsub (lbegin l) (lbegin l)) = n) by now apply len_vsub_n.
  assert (E : collinear (vsub (lbegin l) (lbegin l)) (lvec l) = collinear_n (vsub (lbegin l) (lbegin l)) (lvec l)).
  { destruct (vsub (lbegin l) (lbegin l)) as [|a [|b [|c w]]]; auto. exfalso. now apply N. }
  rewrite E. destruct (collinear_n _ _) eqn:C; auto. exfalso.
  apply collinear_n_spec in C; [|congruence]. destruct C as (k & C). destruct A3 as (x & Hx & Nx). apply Nx.
  rewrite C in Hx. apply in_map_iff in Hx. destruct Hx as (y & <- & Hy).
  apply (In_nth _ _ 0) in Hy. destruct Hy as (i & Hi & <-). rewrite (nth_vsub n) by (auto; lia). ring.
Qed.
Example C82_case :
  within_line [1; 1] (L [0; 0] [1 + 1; 1 + 1] Open Closed) = Border
  /\ within_line [0; 0] (L [0; 0] [1 + 1; 1 + 1] Open Closed) = Outside
  /\ within_line [1 + 1; 1 + 1] (L [0; 0] [1 + 1; 1 + 1] Open Closed) = Border
  /\ within_line [0; 0; 0] (L [0; 0; 0] [1; 1; 1] Closed Closed) = Outside.
Proof. repeat split; vm_compute; reflexivity. Qed.
Print Assumptions C82_within.
Print Assumptions C82_within_n.
Example C82_case_point :
  within_line [1; 1] (L [1; 1] [0; 0] Closed Closed) = Border /\ within_line [1; 0] (L [1; 1] [0; 0] Closed Closed) = Outside.
Proof. split; vm_compute; reflexivity. Qed.
Print Assumptions C82_point.
Print Assumptions C82_begin_refuted.

(** ** C83: circumcenter *)
Theorem C83_circumcenter : forall a b c, length a = 2%nat -> length b = 2%nat -> length c = 2%nat ->
  area2 (vsub b a) (vsub c a) <> 0 ->
  exists o, circumcenter a b c = Ok o /\ length o = 2%nat
    /\ norm2 (vsub o a) = norm2 (vsub o b) /\ norm2 (vsub o a) = norm2 (vsub o c)
    /\ forall o', length o' = 2%nat -> norm2 (vsub o' a) = norm2 (vsub o' b) ->
         norm2 (vsub o' a) = norm2 (vsub o' c) -> o' = o.
Proof.
  intros a b c Ha Hb Hc N.
  assert (N2 : area2 (vsub b c) (vsub a c) <> 0).
  { intros Z. apply N. destruct a as [|ax [|ay [|]]]; try discriminate. destruct b as [|bx [|by_ [|]]]; try discriminate.
    destruct c as [|cx [|cy [|]]]; try discriminate. cbn [vsub zip area2] in *.
    replace ((bx - ax) * (cy - ay) - (by_ - ay) * (cx - ax)) with (- ((bx - cx) * (ay - cy) - (by_ - cy) * (ax - cx)))
      by ring. rewrite Z. ring. }
  destruct (circumcenter_spec a b c Ha Hb Hc N2) as (o & E & Lo & E1 & E2).
  exists o. repeat split; auto. intros o' Lo' F1 F2. eapply (circumcenter_unique a b c); eauto.
Qed.
Example C83_case : exists o, circumcenter [0; 0] [1 + 1; 0] [0; 1 + 1] = Ok o /\ o = [1; 1].
Proof. eexists. split; [vm_compute; reflexivity|]. apply cons2_eq. split; now apply Qc_is_canon. Qed.
Print Assumptions C83_circumcenter.

(** ** C84: lines, spheres and circles *)
(** Given the square root of the discriminant, the parameters output are those of the common points. *)
Theorem C84_line_sphere : forall root n l s, line_in n l -> length (center s) = n ->
  (0 < sphere_delta l s -> root (sphere_delta l s) * root (sphere_delta l s) = sphere_delta l s) ->
  forall t, In t (intersect_sphere root l s)
    <-> inside l t /\ norm2 (vsub (at_ l t) (center s)) = radius s * radius s.
Proof.
  intros root n l s (A1 & A2 & A3) Hc R. apply (intersect_sphere_spec root l s n); auto using nonzero_nondegenerate.
  intros x Px ->. auto.
Qed.
(** In increasing order, none twice. *)
Theorem C84_line_sphere_sorted : forall root n l s, line_in n l -> length (center s) = n ->
  (0 < sphere_delta l s -> 0 < root (sphere_delta l s)) ->
  StronglySorted Qclt (intersect_sphere root l s).
Proof.
  intros root n l s (A1 & A2 & A3) Hc R. unfold intersect_sphere.
  assert (D := nonzero_nondegenerate _ A3). assert (VP := vv_pos l D). assert (Vn := vv_neq l D).
  set (vv := dot (lvec l) (lvec l)) in *. set (p := dot _ _). set (de := sphere_delta l s) in *.
  destruct (qlt de 0) eqn:N; [constructor|]. apply qlt_false in N. destruct (is0 de) eqn:Z.
  - destruct (line_test l p vv); repeat constructor.
  - apply is0_false in Z. assert (0 < de) by (destruct (Qcle_lt_or_eq _ _ N); auto; congruence).
    specialize (R H). destruct (line_test l (p - root de) vv), (line_test l (p + root de) vv); cbn [app]; repeat constructor.
    destruct (div_pos ((p + root de) - (p - root de)) vv VP) as (_ & B & _ & _).
    assert (0 < (p + root de - (p - root de)) / vv) by (apply B; qlra).
    replace ((p + root de) / vv) with ((p - root de) / vv + (p + root de - (p - root de)) / vv) by (field; exact Vn).
    qlra.
Qed.
Theorem C84_circles : forall root l r, length (center l) = 2%nat -> length (center r) = 2%nat ->
  center l <> center r -> 0 <= radius l -> 0 <= radius r ->
  (0 < circles_disc l r -> root (circles_disc l r) * root (circles_disc l r) = circles_disc l r) ->
  exists res, intersect_circles root l r = Ok res
    /\ forall q, In q res <-> length q = 2%nat /\ norm2 (vsub q (center l)) = radius l * radius l
                              /\ norm2 (vsub q (center r)) = radius r * radius r.
Proof. exact intersect_circles_spec. Qed.
(** Finding: two equal circles divide by zero. *)
Theorem C84_equal_circles_refuted : forall root c, intersect_circles root c c = UB.
Proof.
  intros root [c r]. unfold intersect_circles. cbn [center radius].
  assert (Z : dot (vsub c c) (vsub c c) = 0).
  { apply degenerate_dot. unfold degenerate. rewrite forallb_forall. intros x Hx. apply (In_nth _ _ 0) in Hx.
    destruct Hx as (i & Hi & <-). assert (length (vsub c c) = length c) by (apply len_vsub_n; auto).
    rewrite (nth_vsub (length c)) by (auto; lia). apply is0_spec. ring. }
  rewrite Z. replace ((r - r) * (r - r)) with (Q2Qc 0) by ring. rewrite qlt_irrefl.
  replace (qlt ((r + r) * (r + r)) 0) with false by (symmetry; apply qlt_false, Qc_sq_nonneg). reflexivity.
Qed.
(** Given the distance of the centers: spheres with a common point cross. *)
Theorem C84_spheres : forall n dist l r q, length (center l) = n -> length (center r) = n -> length q = n ->
  0 <= dist -> dist * dist = norm2 (vsub (center l) (center r)) -> 0 <= radius l -> 0 <= radius r ->
  norm2 (vsub q (center l)) = radius l * radius l -> norm2 (vsub q (center r)) = radius r * radius r ->
  crosses_spheres dist l r = true.
Proof.
  intros n dist l r q Hl Hr Hq D0 D Rl Rr El Er. unfold crosses_spheres, qabs.
  set (a := vsub q (center l)) in *. set (b := vsub q (center r)) in *.
  assert (La : length a = n) by now apply len_vsub_n. assert (Lb : length b = n) by now apply len_vsub_n.
  assert (E : vsub (center l) (center r) = vsub b a) by (unfold a, b; coords n; ring).
  rewrite E, norm2_vsub in D by congruence.
  assert (CS : dot b a * dot b a <= norm2 b * norm2 a) by (apply cauchy; congruence).
  rewrite El, Er in *. set (x := radius l) in *. set (y := radius r) in *. set (z := dot b a) in *.
  assert (Zu : z <= y * x) by (apply (sq_le_inv z (y * x)); [now apply Qc_mul_nonneg | qlra]).
  assert (Zl : - z <= y * x).
  { apply (sq_le_inv (- z) (y * x)); [now apply Qc_mul_nonneg|]. replace (- z * - z) with (z * z) by ring. qlra. }
  apply andb_true_iff. split; apply negb_true_iff, qlt_false.
  - destruct (qlt (x - y) 0); apply sq_le_inv; auto; rewrite D; qlra.
  - apply sq_le_inv; [now apply Qc_add_nonneg|]. rewrite D. qlra.
Qed.
(** In the plane: circles which cross have a common point. *)
Theorem C84_circles_cross : forall root dist l r, length (center l) = 2%nat -> length (center r) = 2%nat ->
  center l <> center r -> 0 <= dist -> dist * dist = norm2 (vsub (center l) (center r)) ->
  0 <= radius l -> 0 <= radius r ->
  (0 < circles_disc l r -> root (circles_disc l r) * root (circles_disc l r) = circles_disc l r) ->
  crosses_spheres dist l r = true <-> exists p res, intersect_circles root l r = Ok (p :: res).
Proof.
  intros root dist l r Hl Hr N D0 D Rl Rr R.
  destruct (intersect_circles_spec root l r Hl Hr N Rl Rr R) as (res & E & S).
  split.
  - intros C. unfold intersect_circles in *. set (cv := vsub (center r) (center l)) in *.
    assert (Dd : dist * dist = dot cv cv).
    { rewrite D. unfold cv. rewrite norm2_vsub by congruence. change (dot (vsub (center r) (center l)) (vsub (center r) (center l)))
        with (norm2 (vsub (center r) (center l))). rewrite norm2_vsub by congruence. rewrite (dot_comm (center r)). ring. }
    rewrite <- Dd in *. unfold crosses_spheres in C. apply andb_true_iff in C. destruct C as [C1 C2].
    apply negb_true_iff, qlt_false in C1. apply negb_true_iff, qlt_false in C2.
    assert (A1 : qlt (dist * dist) ((radius l - radius r) * (radius l - radius r)) = false).
    { apply qlt_false. unfold qabs in C1. destruct (qlt (radius l - radius r) 0) eqn:Q.
      - apply qlt_spec in Q. qnra.
      - apply qlt_false in Q. qnra. }
    assert (A2 : qlt ((radius l + radius r) * (radius l + radius r)) (dist * dist) = false).
    { apply qlt_false. qnra. }
    rewrite A1, A2 in *. cbn [orb] in *. destruct (is0 (dist * dist)); [discriminate|].
    destruct (is0 _ || is0 _); eexists; eexists; reflexivity.
  - intros (p & res' & E'). rewrite E in E'. injection E' as ->. specialize (S p).
    assert (In p (p :: res')) by now left. apply S in H. destruct H as (Lp & P1 & P2).
    now apply (C84_spheres 2 dist l r p).
Qed.
Theorem C84_within_sphere : forall dist s p, 0 <= dist -> dist * dist = norm2 (vsub p (center s)) -> 0 <= radius s ->
  within_sphere dist s = (match norm2 (vsub p (center s)) ?= radius s * radius s with Lt => Inside | Eq => Border | Gt => Outside end).
Proof.
  intros dist s p D0 D R. rewrite <- D. unfold within_sphere.
  destruct (qlt dist (radius s)) eqn:A.
  - apply qlt_spec in A. replace (dist * dist ?= radius s * radius s) with Lt; auto. symmetry. apply Qclt_alt.
    apply sq_lt; auto.
  - apply qlt_false in A. destruct (qlt (radius s) dist) eqn:B.
    + apply qlt_spec in B. replace (dist * dist ?= radius s * radius s) with Gt; auto. symmetry. apply Qcgt_alt.
      apply sq_lt; auto.
    + apply qlt_false in B. rewrite (Qcle_antisym _ _ B A).
      replace (radius s * radius s ?= radius s * radius s) with Eq; auto. symmetry. now apply Qceq_alt.
Qed.
Example C84_case :
  let l := L [- (1 + 1); 0] [1; 0] Closed Free in
  let s := Sp [0; 0] 1 in
  let root := fun _ : Qc => 1 in
  line_in 2 l /\ sphere_delta l s = 1 /\ intersect_sphere root l s = [1; 1 + 1 + 1].
Proof.
  cbv zeta. split; [repeat split; auto; exists 1; split; [now left | discriminate]|].
  split; [now apply Qc_is_canon|]. vm_compute. apply cons2_eq. split; now apply Qc_is_canon.
Qed.
Example C84_circles_case :
  let l := Sp [0; 0] (Q2Qc 5) in let r := Sp [Q2Qc 6; 0] (Q2Qc 5) in
  let root := fun _ : Qc => Q2Qc (4 # 3) in
  root (circles_disc l r) * root (circles_disc l r) = circles_disc l r
  /\ exists p q, intersect_circles root l r = Ok [p; q] /\ p = [Q2Qc 3; Q2Qc (- (4))] /\ q = [Q2Qc 3; Q2Qc 4].
Proof.
  cbv zeta. split; [now apply Qc_is_canon|]. eexists. eexists. split; [vm_compute; reflexivity|].
  split; apply cons2_eq; split; now apply Qc_is_canon.
Qed.
Print Assumptions C84_line_sphere.
Print Assumptions C84_line_sphere_sorted.
Print Assumptions C84_circles.
Print Assumptions C84_equal_circles_refuted.
Print Assumptions C84_spheres.
Print Assumptions C84_circles_cross.
Print Assumptions C84_within_sphere.

(** ** C85: points output through the adaptor for lines *)
(** Finding: the adaptor never advances the output iterator: of the points written through
    an iterator into an array only the last one is kept, and the iterator returned is the
    one given, so that the number of points is not known. *)
Theorem C85_output_refuted : forall l xs x out i, (i < length out)%nat ->
  write_scalars l (out, i) (xs ++ [x]) = (firstn i out ++ at_ l x :: skipn (S i) out, i).
Proof.
  intros l xs x out i. unfold write_scalars, write_through, assign_at. rewrite fold_left_app. cbn [fold_left fst snd].
  revert out. induction xs as [|y xs IH]; intros out Hi; [reflexivity|]. cbn [fold_left fst snd].
  rewrite IH.
  - set (pre := firstn i out). assert (Lp : length pre = i) by (unfold pre; rewrite firstn_length; lia).
    rewrite firstn_app, Lp, Nat.sub_diag, firstn_O, app_nil_r. rewrite (firstn_all2 pre) by lia.
    f_equal. f_equal. f_equal. rewrite skipn_app, Lp. replace (S i - i)%nat with 1%nat by lia.
    rewrite (skipn_all2 pre) by lia. reflexivity.
  - rewrite app_length, firstn_length. cbn [length]. rewrite skipn_length. lia.
Qed.
(** One point is written, but the iterator returned does not show it. *)
Theorem C85_position_refuted : forall l xs out i, snd (write_scalars l (out, i) xs) = i.
Proof.
  intros l xs. induction xs as [|x xs IH]; intros out i; [reflexivity|]. unfold write_scalars, write_through, assign_at in *. cbn [fold_left fst snd]. apply IH.
Qed.
(** Through an iterator whose assignments append, all points are kept in order. *)
Theorem C85_appended : forall l xs out, append_scalars l out xs = out ++ map (at_ l) xs.
Proof.
  intros l xs. unfold append_scalars, write_through, assign_back. induction xs as [|x xs IH]; intros out; cbn [fold_left map]; [now rewrite app_nil_r|].
  rewrite IH, <- app_assoc. reflexivity.
Qed.
Print Assumptions C85_appended.
Example C85_case :
  let l := L [0; 0] [1; 0] Free Free in
  fst (write_scalars l ([[0; 0]; [0; 0]], 0%nat) [- (1); 1]) = [at_ l 1; [0; 0]].
Proof. reflexivity. Qed.
Print Assumptions C85_output_refuted.
Print Assumptions C85_position_refuted.
