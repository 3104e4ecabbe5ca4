(** C121: point location and sorting by angle over machine integers. *)
From Coq Require Import ZArith List Bool Lia Permutation Sorted.
From Verif Require Import Outcome IntTypes GeoModel HullProofs PolyModel MGeoModel MGeoProofs MPolyModel PolyProofs WindProofs ConvexProofs AngleProofs PropPoly.
Import ListNotations.
Local Open Scope Z_scope.

(** All coordinates are in a box whose sides and area fit into the type of the products. *)
Definition fits (t : ity) (pts : list pt) : Prop :=
  IntTypes.sgn (promote t) = true /\
  exists x0 y0 W H, (forall q, In q pts -> in_box x0 y0 W H q) /\ W <= top t /\ H <= top t /\ W * H <= top t.

Lemma fits_orient t pts l r o : fits t pts -> In l pts -> In r pts -> In o pts -> morient3 t l r o = Ok (orient3 l r o).
Proof. intros (S & x0 & y0 & W & H & B & HW & HH & HA) L R O. apply morient3_ok with x0 y0 W H; auto. Qed.

Lemma medge_ok t p a b pts : fits t pts -> In p pts -> In a pts -> In b pts -> medge_step t p a b = Ok (edge_step p a b).
Proof.
  intros F Ip Ia Ib. unfold medge_step, edge_step. rewrite (fits_orient t pts p b a F Ip Ib Ia). cbn [bind].
  destruct (peq p a); [reflexivity|]. destruct ((py a =? py p) && (py b =? py p)).
  - destruct (px a <? px b).
    + now destruct (negb (px p <? px a) && negb (px b <? px p)).
    + now destruct (negb (px p <? px b) && negb (px a <? px p)).
  - destruct (negb (Bool.eqb (py a <? py p) (py b <? py p))); [|reflexivity].
    destruct (orient3 p b a =? o_collinear); [reflexivity|].
    now destruct (Bool.eqb (py a <? py p) (orient3 p b a =? o_right)).
Qed.
Lemma edge_small p a b d : edge_step p a b = Some d -> -1 <= d <= 1.
Proof.
  unfold edge_step. repeat (match goal with |- context [if ?c then _ else _] => destruct c end; cbn);
    intros E; try discriminate; injection E as <-; lia.
Qed.
(** What the code returns for a winding number. *)
Definition as_int (w : winding) : Z := match w with Boundary => boundary | Wind n => n end.
Lemma mwinding_loop_ok t p poly : fits t (p :: poly) -> poly <> [] -> forall n i res,
  Z.abs res + Z.of_nat n < boundary ->
  mwinding_loop t p poly n i res = Ok (as_int (winding_loop p poly n i res)) /\
  (forall m, winding_loop p poly n i res = Wind m -> Z.abs m <= Z.abs res + Z.of_nat n).
Proof.
  intros F N. induction n as [|n IH]; intros i res B.
  - split; [reflexivity|]. intros m E. injection E as <-. lia.
  - cbn [mwinding_loop winding_loop].
    rewrite (medge_ok t p _ _ (p :: poly)); auto; try (now left); try (right; now apply cyc_In). cbn [bind].
    destruct (edge_step p (cyc poly i) (cyc poly (i + 1))) as [d|] eqn:E.
    + pose proof (edge_small _ _ _ _ E) as D. unfold boundary in *.
      assert (A : iarith int32 (res + d) = Ok (res + d)).
      { unfold iarith. replace (in_ityb int32 (res + d)) with true; [reflexivity|].
        symmetry. apply in_ityb_spec. unfold in_ity, ilow, ihigh. cbn [sgn bits int32]. change (2 ^ (32 - 1)) with 2147483648. lia. }
      rewrite A. cbn [bind]. destruct (IH (i + 1) (res + d)) as [H1 H2]; [lia|].
      split; [exact H1|]. intros m Em. specialize (H2 m Em). lia.
    + split; [reflexivity|discriminate].
Qed.

(** The winding number is the exact one, and no number is mistaken for the boundary. *)
Theorem C121_winding : forall t p poly, fits t (p :: poly) -> Z.of_nat (length poly) < boundary ->
  mwinding_number t p poly = Ok (as_int (winding_number p poly)) /\
  (forall n, winding_number p poly = Wind n -> Z.abs n < boundary).
Proof.
  intros t p poly F L. unfold mwinding_number, winding_number.
  destruct poly as [|a [|b poly]].
  - split; [reflexivity|]. intros n E. injection E as <-. unfold boundary. lia.
  - destruct (peq p a); (split; [reflexivity|]); [discriminate|]. intros n E. injection E as <-. unfold boundary. lia.
  - destruct (mwinding_loop_ok t p (a :: b :: poly) F ltac:(discriminate) (length (a :: b :: poly)) 0 0) as [H1 H2]; [lia|].
    split; [exact H1|]. intros n E. specialize (H2 n E). lia.
Qed.
Theorem C121_within_simple : forall t p poly, fits t (p :: poly) -> Z.of_nat (length poly) < boundary ->
  mwithin_simple t p poly = Ok (within_simple p poly).
Proof.
  intros t p poly F L. destruct (C121_winding t p poly F L) as [E B]. unfold mwithin_simple, within_simple. rewrite E. cbn [bind].
  destruct (winding_number p poly) as [|n]; [reflexivity|]. specialize (B n eq_refl). cbn [as_int].
  destruct (Z.eqb_spec n 0) as [->|N]; [reflexivity|].
  destruct (Z.eqb_spec n boundary) as [->|N2]; [unfold boundary in B; lia|]. now destruct n.
Qed.
(** So a convex polygon is decided correctly: the point is inside exactly if it is to the left of every edge. *)
Theorem C121_convex_polygon : forall t p poly, fits t (p :: poly) -> Z.of_nat (length poly) < boundary -> convex poly ->
  exists w, mwithin_simple t p poly = Ok w /\
    (w = Border <-> exists a b, poly_edge poly a b /\ on_seg p a b) /\
    (w = Inside <-> forall a b, poly_edge poly a b -> 0 < turn a b p).
Proof.
  intros t p poly F L C. exists (within_simple p poly). split; [now apply C121_within_simple|].
  split; [apply C87_border|]. now apply C87_inside.
Qed.
Theorem C121_within_triangle : forall t p poly, fits t (p :: poly) -> mwithin_triangle t p poly = within_triangle p poly.
Proof.
  intros t p poly F. unfold mwithin_triangle, within_triangle.
  destruct (Z.eqb_spec (Z.of_nat (length poly)) 3) as [E|E]; [|reflexivity]. cbn [negb].
  assert (N : poly <> []) by (intros ->; discriminate).
  rewrite !(fits_orient t (p :: poly)) by (auto; try (now left); right; now apply cyc_In). reflexivity.
Qed.
Lemma lower_bound_le less l p : (lower_bound less l p <= length l)%nat.
Proof. induction l as [|v l IH]; cbn; [lia|]. destruct (less v p); lia. Qed.
Lemma vertex_In poly i : (i < length poly)%nat -> In (vertex poly i) poly.
Proof. intros. now apply nth_In. Qed.
Lemma tests_ok t p poly right : fits t (p :: poly) -> (0 < right < length poly)%nat ->
  mlower_test t p poly right = Ok (lower_test p poly right) /\ mupper_test t p poly right = Ok (upper_test p poly right).
Proof.
  intros F R.
  assert (O : forall a b, In a poly -> In b poly -> morient3 t p a b = Ok (orient3 p a b)).
  { intros. apply (fits_orient t (p :: poly)); auto; [now left|now right|now right]. }
  split.
  - unfold mlower_test, lower_test.
    pose proof (lower_bound_le pless (firstn (right - 1) (skipn 1 poly)) p) as B. rewrite firstn_length in B.
    apply O; apply vertex_In; lia.
  - unfold mupper_test, upper_test.
    pose proof (lower_bound_le pless (firstn (length poly - right - 1) (rev poly)) p) as B. rewrite firstn_length in B.
    apply O.
    + destruct (lower_bound _ _ _) as [|u]; [apply vertex_In; lia|]. apply in_rev, vertex_In. rewrite rev_length. lia.
    + apply in_rev, vertex_In. rewrite rev_length. lia.
Qed.
Lemma mconvex_ok t p poly right : fits t (p :: poly) -> (0 < right < length poly)%nat ->
  mwithin_convex t p poly right = within_convex p poly right /\ mwithin_monotone t p poly right = within_monotone p poly right.
Proof.
  intros F R. destruct (tests_ok t p poly right F R) as [Lo Up].
  assert (O : forall a b, In a poly -> In b poly -> morient3 t p a b = Ok (orient3 p a b)).
  { intros. apply (fits_orient t (p :: poly)); auto; [now left|now right|now right]. }
  unfold mwithin_convex, within_convex, mwithin_monotone, within_monotone.
  destruct poly as [|v0 [|v1 poly]]; try (split; reflexivity).
  rewrite O by (first [left; reflexivity | apply vertex_In; lia]). rewrite Lo, Up. cbn [bind]. split; [reflexivity|].
  now destruct (lower_test p (v0 :: v1 :: poly) right =? o_right).
Qed.
(** Both searches locate the point in a convex polygon prepared for them. *)
Theorem C121_located : forall t poly p m r, fits t (p :: poly) -> convex poly -> to_monotone poly = (m, r) ->
  Z.of_nat (length poly) < boundary ->
  mwithin_convex t p m (Z.to_nat r) = mwithin_simple t p poly /\
  mwithin_monotone t p m (Z.to_nat r) = mwithin_simple t p poly.
Proof.
  intros t poly p m r F C M L. rewrite C121_within_simple by assumption.
  pose proof (C88_convex poly p m r C M) as Ec. pose proof (C88_monotone poly p m r C M) as Em. rewrite <- Ec at 1. rewrite <- Em.
  clear Ec Em. destruct (to_monotone_spec poly) as (l1 & l2 & k & P1 & P2 & K & Mn & Mx); [destruct C; lia|].
  rewrite P2 in M. injection M as <- <-. rewrite Nat2Z.id.
  assert (C' : convex (l2 ++ l1)) by (apply convex_rotate; now rewrite <- P1).
  assert (Ins : forall q, In q (l2 ++ l1) <-> In q poly) by (intros q; rewrite P1, !in_app_iff; tauto).
  assert (LL : length (l2 ++ l1) = length poly) by (rewrite P1, !app_length; lia).
  apply mconvex_ok.
  - destruct F as (Sg & x0 & y0 & W & H & B & T). split; auto. exists x0, y0, W, H. split; auto.
    intros q [<-|Q]; apply B; [now left|]. right. now apply Ins.
  - split; [|lia]. destruct k as [|k]; [exfalso|lia].
    destruct (l2 ++ l1) as [|v0 [|y rest]]; [destruct C' as [Q _]; cbn in Q; lia..|].
    cbn in Mn, Mx. destruct C' as [Q T].
    assert (Y : In y poly) by (apply Ins; right; left; reflexivity).
    assert (v0 = y) by (apply below_anti; auto). subst y.
    specialize (T 0 1 2)%nat. unfold at_, turn in T. cbn [nth] in T. cbn in Q. specialize (T ltac:(lia) Q). lia.
Qed.
Theorem C121_orientation : forall t poly, fits t poly -> poly <> [] -> morientation_simple t poly = orientation_simple poly.
Proof.
  intros t poly F N. unfold morientation_simple, orientation_simple. destruct poly as [|v l]; [contradiction|].
  apply (fits_orient t (v :: l)); auto; now apply cyc_In.
Qed.

(** Without vertices there is no least one. *)
Theorem C121_orientation_empty : forall t poly, fits t poly -> (morientation_simple t poly = UB <-> poly = []).
Proof.
  intros t poly F. split; [|now intros ->]. intros E. destruct poly as [|v l]; [reflexivity|]. rewrite C121_orientation in E by easy. discriminate E.
Qed.

Theorem C121_orientation_convex : forall t poly, fits t poly -> convex poly ->
  morientation_simple t poly = Ok o_left /\ morientation_simple t (rev poly) = Ok o_right.
Proof.
  intros t poly F C. assert (N : poly <> []) by (intros ->; destruct C as [C _]; cbn in C; lia).
  rewrite !C121_orientation; auto.
  - apply C90_simple, C.
  - destruct F as (S & x0 & y0 & W & H & B & K). split; auto. exists x0, y0, W, H. split; auto. intros q I. apply B. now apply in_rev.
  - intros E. apply N. rewrite <- (rev_involutive poly), E. reflexivity.
Qed.

(** Sorting by angle needs the products of coordinates and their differences. *)
Definition small (t : ity) (pts : list pt) : Prop :=
  IntTypes.sgn (promote t) = true /\ exists X Y, 2 * (X * Y) <= top t /\ forall q, In q pts -> Z.abs (px q) <= X /\ Z.abs (py q) <= Y.
Lemma mleft_ok t pts l r : small t pts -> In l pts -> In r pts -> mleft_turn t l r = Ok (left_turn l r).
Proof.
  intros (S & X & Y & T & B) L R. apply B in L, R. unfold mleft_turn, morient. 
  assert (A1 : Z.abs (px r * py l) <= X * Y) by (apply abs_mul_le; lia).
  assert (A2 : Z.abs (py r * px l) <= Y * X) by (apply abs_mul_le; lia).
  rewrite marea_ok; auto; try lia. unfold area. lia.
Qed.
Lemma msort_ok lt mlt (D : list pt) : (forall a b, In a D -> In b D -> mlt a b = Ok (lt a b)) ->
  forall l, (forall q, In q l -> In q D) -> msort mlt l = Ok (sort lt l).
Proof.
  intros E. assert (I : forall x l, In x D -> (forall q, In q l -> In q D) -> minsert mlt x l = Ok (insert lt x l)).
  { intros x l Ix. induction l as [|y l IH]; intros Il; [reflexivity|]. cbn [minsert insert].
    rewrite E by (auto; apply Il; now left). cbn [bind]. destruct (lt y x); [|reflexivity].
    rewrite IH; [reflexivity|]. intros q Q. apply Il. now right. }
  induction l as [|x l IH]; intros Il; [reflexivity|]. cbn [msort]. rewrite IH by (intros; apply Il; now right). cbn [bind].
  cbn [sort fold_right]. apply I; [apply Il; now left|]. intros q Q. apply Il. right.
  apply (Permutation_in q (sort_perm lt l)). exact Q.
Qed.
Theorem C121_sorted : forall t pts, small t pts -> exists r, msort_by_angle t pts = Ok r /\
  Permutation r pts /\ StronglySorted angle_le r.
Proof.
  intros t pts S. exists (sort_by_angle pts). split; [|apply C91_sorted].
  unfold msort_by_angle, sort_by_angle.
  assert (E := msort_ok left_turn (mleft_turn t) pts (fun a b => mleft_ok t pts a b S)).
  rewrite !E; [reflexivity| |]; intros q Q; apply filter_In in Q as [Q _]; now apply filter_In in Q.
Qed.

Lemma unsigned_orient t a b s : IntTypes.sgn (promote t) = false -> morient t a b = Ok s -> 0 <= s <= 1.
Proof.
  intros S E. unfold morient, marea in E.
  destruct (mmul t (px b) (py a)) as [u| | | |]; try discriminate.
  destruct (mmul t (py b) (px a)) as [v| | | |]; try discriminate.
  cbn [bind] in E. unfold msub in E. pose proof (promote_bits t) as PB. rewrite iarith_unsigned in E by (auto; lia).
  cbn [bind] in E. injection E as <-. pose proof (wrap_in (promote t) (u - v) ltac:(lia)) as W.
  unfold in_ity, ilow in W. rewrite S in W. lia.
Qed.
(** Finding: over unsigned types of at least 32 bits a triangle has no outside. *)
Theorem C121_unsigned_triangle_refuted : forall t p poly, IntTypes.sgn (promote t) = false ->
  mwithin_triangle t p poly <> Ok Outside.
Proof.
  intros t p poly S. unfold mwithin_triangle. destruct (Z.of_nat (length poly) =? 3); [|discriminate]. cbn [negb].
  destruct (morient3 t p (cyc poly 1) (cyc poly 0)) as [s0| | | |] eqn:E0; try discriminate.
  destruct (morient3 t p (cyc poly 2) (cyc poly 1)) as [s1| | | |] eqn:E1; try discriminate.
  destruct (morient3 t p (cyc poly 3) (cyc poly 2)) as [s2| | | |] eqn:E2; try discriminate.
  assert (K : forall a b o s, morient3 t a b o = Ok s -> 0 <= s <= 1).
  { intros a b o s E. unfold morient3 in E.
    destruct (mpsub t a o) as [d| | | |]; try discriminate. destruct (mpsub t b o) as [e| | | |]; try discriminate.
    cbn [bind] in E. apply unsigned_orient in E; [exact E|]. now rewrite promote_idem. }
  apply K in E0, E1, E2.
  change ((if (s0 =? s1) && (s1 =? s2) then Ok Inside
    else if (negb (s0 =? 0) && (s0 =? - s1)) || ((negb (s1 =? 0) && (s1 =? - s2)) || ((negb (s2 =? 0) && (s2 =? - s0)) || false))
         then Ok Outside else Ok Border) <> Ok Outside).
  replace (negb (s0 =? 0) && (s0 =? - s1)) with false by lia.
  replace (negb (s1 =? 0) && (s1 =? - s2)) with false by lia.
  replace (negb (s2 =? 0) && (s2 =? - s0)) with false by lia.
  destruct ((s0 =? s1) && (s1 =? s2)); discriminate.
Qed.

(** Finding: over such types nothing is to the left of anything, and sorting by angle sorts nothing. *)
Theorem C121_unsigned_turn_refuted : forall t l r, IntTypes.sgn (promote t) = false -> mleft_turn t l r = Ok false.
Proof.
  intros t l r S. assert (A : forall z, iarith (promote t) z = Ok (IntTypes.wrap (promote t) z))
    by (intro; pose proof (promote_bits t); apply iarith_unsigned; auto; lia).
  assert (M : exists s, morient t l r = Ok s).
  { unfold morient, marea, mmul, msub. rewrite !A. cbn [bind]. rewrite A. cbn [bind]. eexists. reflexivity. }
  destruct M as [s E]. unfold mleft_turn. rewrite E. apply unsigned_orient in E; auto. cbn [bind].
  f_equal. apply Z.eqb_neq. unfold o_left. lia.
Qed.
Definition uint32 : ity := {| bits := 32; sgn := false |}.
Definition square (a b : Z) : list pt := [P a a; P b a; P b b; P a b].
Theorem C121_unsigned_refuted :
  (exists pts r, msort_by_angle uint32 pts = Ok r /\ ~ StronglySorted angle_le r) /\
  (exists p poly, convex poly /\ within_simple p poly = Outside /\ mwithin_simple uint32 p poly = Ok Inside) /\
  (exists p a b c, 0 < turn a b c /\ within_simple p [a; b; c] = Outside /\ mwithin_triangle uint32 p [a; b; c] = Ok Inside).
Proof.
  split; [|split].
  - exists [P 1 2; P 2 1], [P 1 2; P 2 1]. split; [vm_compute; reflexivity|].
    intros H. inversion H as [|? ? _ F]; subst. inversion F as [|? ? A _]; subst. unfold angle_le in A. cbn in A. lia.
  - exists (P 6 3), (square 1 5). split; [|split; vm_compute; reflexivity].
    split; [cbn; lia|]. intros i j k I K. cbn in K.
    assert (i < 4 /\ j < 4 /\ k < 4)%nat as (A & B & C) by lia.
    do 4 (destruct i as [|i]; [do 4 (destruct j as [|j]; [do 4 (destruct k as [|k]; [try lia; reflexivity|]); lia|]); lia|]). lia.
  - exists (P 6 3), (P 1 1), (P 5 1), (P 5 5). repeat split; vm_compute; reflexivity.
Qed.
Definition int16 : ity := {| bits := 16; sgn := true |}.
(** Finding: coordinates of 16 bits are enough for undefined behaviour, since the products are computed in int. *)
Theorem C121_short_refuted : exists p poly, (forall q, In q (p :: poly) -> in_ity int16 (px q) /\ in_ity int16 (py q)) /\
  within_simple p poly = Inside /\ mwithin_triangle int16 p poly = UB /\ mwithin_simple int16 p poly = UB.
Proof.
  exists (P 20000 0), [P 32767 0; P (-32767) 32767; P (-32767) (-32767)]. split.
  - intros q Q. assert (A : Forall (fun q => in_ity int16 (px q) /\ in_ity int16 (py q)) [P 20000 0; P 32767 0; P (-32767) 32767; P (-32767) (-32767)]).
    { repeat apply Forall_cons; try apply Forall_nil; unfold in_ity; vm_compute; repeat split; discriminate || reflexivity. }
    rewrite Forall_forall in A. now apply A.
  - repeat split; vm_compute; reflexivity.
Qed.

Example C121_case :
  fits int16 (P 2 2 :: pentagon) /\ convex pentagon /\ Z.of_nat (length pentagon) < boundary /\
  mwithin_simple int16 (P 2 2) pentagon = Ok Inside /\ mwithin_simple int16 (P 2 (-1)) pentagon = Ok Outside /\
  mwithin_convex int16 (P 2 2) [P (-1) 4; P 0 0; P 4 (-1); P 6 3; P 3 6] 3 = Ok Inside /\
  fits int32 [P 5 5; P 0 0; P 30000 0; P 0 30000] /\
  mwithin_triangle int32 (P 5 5) [P 0 0; P 30000 0; P 0 30000] = Ok Inside /\
  mwithin_triangle int32 (P 5 (-5)) [P 0 0; P 30000 0; P 0 30000] = Ok Outside /\
  mwinding_number int32 (P 6 5) spiral = Ok 2 /\ mwinding_number int32 (P 4 1) spiral = Ok 2147483647 /\
  morientation_simple int32 (rev pentagon) = Ok o_right /\
  small int32 [P 5 (-7); P 0 0; P (-3) 2; P 20 9] /\
  msort_by_angle int32 [P 5 (-7); P 0 0; P (-3) 2; P 20 9] = Ok [P 0 0; P 20 9; P (-3) 2; P 5 (-7)].
Proof.
  assert (T : forall t, t = int16 \/ t = int32 -> top t = 2147483647) by (intros t [->| ->]; reflexivity).
  split.
  { split; [reflexivity|]. exists (-1), (-1), 7, 7. split; [|rewrite T by auto; lia].
    intros q Q. cbn in Q. unfold in_box. repeat destruct Q as [<-|Q]; cbn; lia || contradiction. }
  split; [apply pentagon_convex|]. split; [reflexivity|]. split; [vm_compute; reflexivity|]. split; [vm_compute; reflexivity|].
  split; [vm_compute; reflexivity|]. split.
  { split; [reflexivity|]. exists 0, 0, 30000, 30000. split; [|rewrite T by auto; lia].
    intros q Q. cbn in Q. unfold in_box. repeat destruct Q as [<-|Q]; cbn; lia || contradiction. }
  split; [vm_compute; reflexivity|]. split; [vm_compute; reflexivity|]. split; [vm_compute; reflexivity|].
  split; [vm_compute; reflexivity|]. split; [vm_compute; reflexivity|]. split; [|vm_compute; reflexivity].
  split; [reflexivity|]. exists 20, 9. split; [rewrite T by auto; lia|].
  intros q Q. cbn in Q. repeat destruct Q as [<-|Q]; cbn; lia || contradiction.
Qed.
Print Assumptions C121_orientation_empty.
Print Assumptions C121_winding.
Print Assumptions C121_within_simple.
Print Assumptions C121_convex_polygon.
Print Assumptions C121_within_triangle.
Print Assumptions C121_located.
Print Assumptions C121_orientation.
Print Assumptions C121_orientation_convex.
Print Assumptions C121_sorted.
Print Assumptions C121_unsigned_triangle_refuted.
Print Assumptions C121_unsigned_turn_refuted.
Print Assumptions C121_unsigned_refuted.
Print Assumptions C121_short_refuted.
