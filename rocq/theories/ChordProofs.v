(** Proofs about the intersection of a line and a convex polygon: ChordModel.v. *)
From Coq Require Import ZArith QArith List Bool Lia Lqa.
From Verif Require Import Outcome GeoModel HullProofs GeoProofs PolyModel PolyProofs WindProofs ConvexProofs AngleProofs ExtremeModel ExtremeProofs ChordModel.
Import ListNotations.
Local Open Scope Z_scope.

(** ** Searching a chain *)
Lemma chain_loop_spec l poly fo : (3 <= length poly)%nat -> let n := length poly in
  forall fuel first last, (first < n)%nat -> (last < n)%nat ->
  orient_pl (vertex poly first) l = fo -> orient_pl (vertex poly last) l <> fo -> (cyclic_minus n last first <= fuel)%nat ->
  exists u, chain_loop fuel l poly first last fo = Ok (u, cyclic_plus n u 1) /\ (u < n)%nat
    /\ orient_pl (vertex poly u) l = fo /\ orient_pl (vertex poly (cyclic_plus n u 1)) l <> fo.
Proof.
  intros N n. induction fuel as [|fuel IH]; intros first last FN LN F L D.
  - exfalso. assert (first = last); [|subst; contradiction]. unfold cyclic_minus in D. destruct (Nat.leb_spec first last); lia.
  - cbn [chain_loop]. cbv zeta. fold n. destruct (Nat.eqb_spec (cyclic_plus n first 1) last) as [E|E].
    { exists first. rewrite E. auto. }
    set (d := cyclic_minus n last first) in *. assert (NE : first <> last) by (intros ->; contradiction).
    assert (DB : (2 <= d < n)%nat).
    { unfold d, cyclic_minus, cyclic_plus in *. destruct (Nat.leb_spec first last); destruct (Nat.leb_spec (n - first) 1); lia. }
    assert (H2 : (1 <= d / 2 < d)%nat).
    { pose proof (Nat.div_mod d 2 ltac:(lia)). pose proof (Nat.mod_upper_bound d 2 ltac:(lia)). lia. }
    set (middle := cyclic_plus n first (d / 2)).
    assert (MN : (middle < n)%nat) by (unfold middle, cyclic_plus; destruct (Nat.leb_spec (n - first) (d / 2)); lia).
    assert (D1 : cyclic_minus n middle first = (d / 2)%nat).
    { unfold middle, cyclic_plus, cyclic_minus. destruct (Nat.leb_spec (n - first) (d / 2)).
      - destruct (Nat.leb_spec first (first + d / 2 - n)); lia.
      - destruct (Nat.leb_spec first (first + d / 2)); lia. }
    assert (D2 : cyclic_minus n last middle = (d - d / 2)%nat).
    { unfold middle, cyclic_plus. unfold d in *. unfold cyclic_minus in *. destruct (Nat.leb_spec first last).
      - destruct (Nat.leb_spec (n - first) ((last - first) / 2)); [lia|]. destruct (Nat.leb_spec (first + (last - first) / 2) last); lia.
      - destruct (Nat.leb_spec (n - first) ((last + n - first) / 2)).
        + destruct (Nat.leb_spec (first + (last + n - first) / 2 - n) last); lia.
        + destruct (Nat.leb_spec (first + (last + n - first) / 2) last); lia. }
    destruct (Z.eqb_spec (orient_pl (vertex poly middle) l) fo) as [Q|Q].
    + apply IH; auto. lia.
    + apply IH; auto. lia.
Qed.
Lemma plus_one poly u : (u < length poly)%nat -> vertex poly (cyclic_plus (length poly) u 1) = cyc poly (Z.of_nat u + 1)
  /\ (cyclic_plus (length poly) u 1 < length poly)%nat.
Proof.
  intros U. assert (B : (cyclic_plus (length poly) u 1 < length poly)%nat).
  { unfold cyclic_plus. destruct (Nat.leb_spec (length poly - u) 1); lia. }
  split; [|exact B]. unfold cyc, vertex. f_equal. unfold cyclic_plus in *. destruct (Nat.leb_spec (length poly - u) 1).
  - replace (Z.of_nat u + 1) with (0 + 1 * Z.of_nat (length poly)) by lia. rewrite Z.mod_add by lia. rewrite Z.mod_0_l by lia. cbn. lia.
  - rewrite Z.mod_small by lia. lia.
Qed.

(** ** Parameters *)
Definition begin_ok (k : endpoint) (t : Q) : bool := match k with Free => true | Closed => Qle_bool 0 t | Open => negb (Qle_bool t 0) end.
Definition end_ok (k : endpoint) (t : Q) : bool := match k with Free => true | Closed => Qle_bool t 1 | Open => negb (Qle_bool 1 t) end.
(** Between the ends of the line. *)
Definition on_line (kb ke : endpoint) (t : Q) : bool := begin_ok kb t && end_ok ke t.
(** The point with parameter [t] of the line relative to the line from [a] to [b]. *)
Definition side (l : line) (a b : pt) (t : Q) : Q := inject_Z (turn a b (lbegin l)) + t * inject_Z (area (psub b a) (lvec l)).
Lemma inject_pos z : 0 < z -> (0 < inject_Z z)%Q.
Proof. intros H. change 0%Q with (inject_Z 0). now rewrite <- Zlt_Qlt. Qed.
Lemma Qdiv_le_bool a b : 0 < b -> Qle_bool 0 (inject_Z a / inject_Z b) = negb (a <? 0)
  /\ Qle_bool (inject_Z a / inject_Z b) 0 = negb (0 <? a) /\ Qle_bool (inject_Z a / inject_Z b) 1 = negb (b <? a)
  /\ Qle_bool 1 (inject_Z a / inject_Z b) = negb (a <? b).
Proof.
  intros B. pose proof (inject_pos b B) as BQ.
  assert (E : forall z : Z, (inject_Z z <= inject_Z a / inject_Z b <-> inject_Z (z * b) <= inject_Z a)%Q /\ (inject_Z a / inject_Z b <= inject_Z z <-> inject_Z a <= inject_Z (z * b))%Q).
  { intros z. rewrite inject_Z_mult. split; split; intros H.
    - apply (Qmult_le_compat_r _ _ (inject_Z b)) in H; [|lra]. rewrite (Qmult_comm (_ / _)), Qmult_div_r in H by lra. exact H.
    - apply Qle_shift_div_l; auto.
    - apply (Qmult_le_compat_r _ _ (inject_Z b)) in H; [|lra]. rewrite (Qmult_comm (_ / _)), Qmult_div_r in H by lra. exact H.
    - apply Qle_shift_div_r; auto. }
  assert (X : forall p q : bool, (p = true <-> q = true) -> p = q) by (intros [] [] [F G]; auto; symmetry; auto).
  destruct (E 0) as [E1 E2], (E 1) as [E3 E4]. rewrite <- Zle_Qle in E1, E2, E3, E4.
  repeat split; apply X; rewrite Qle_bool_iff, negb_true_iff, Z.ltb_ge.
  - rewrite <- E1. reflexivity.
  - rewrite <- E2. reflexivity.
  - rewrite Z.mul_1_l in E4. rewrite <- E4. reflexivity.
  - rewrite Z.mul_1_l in E3. rewrite <- E3. reflexivity.
Qed.
Lemma line_test_ok kb ke num den : 0 < den -> line_test kb ke num den = on_line kb ke (inject_Z num / inject_Z den).
Proof.
  intros D. destruct (Qdiv_le_bool num den D) as (A & B & E & F). unfold line_test, on_line, endpoint_test, begin_ok, end_ok.
  destruct kb, ke; rewrite ?A, ?B, ?E, ?F, ?negb_involutive; reflexivity.
Qed.
Lemma opp_div num den : den <> 0 -> (inject_Z (- num) / inject_Z (- den) == inject_Z num / inject_Z den)%Q.
Proof. intros D. rewrite !inject_Z_opp. field. change 0%Q with (inject_Z 0). rewrite inject_Z_injective. exact D. Qed.
Lemma on_line_proper kb ke s t : (s == t)%Q -> on_line kb ke s = on_line kb ke t.
Proof. intros E. unfold on_line, begin_ok, end_ok. destruct kb, ke; rewrite ?E; reflexivity. Qed.
Lemma cross_scalar_spec kb ke l a b : let t := (inject_Z (area (psub (lbegin l) a) (psub b a)) / inject_Z (area (psub b a) (lvec l)))%Q in
  area (psub b a) (lvec l) <> 0 -> cross_scalar kb ke l (make_line a b) = filter (on_line kb ke) [t] /\ (side l a b t == 0)%Q.
Proof.
  intros t NZ. split.
  - unfold cross_scalar, make_line. cbn [lvec lbegin]. destruct (Z.eqb_spec (area (psub b a) (lvec l)) 0) as [|_]; [contradiction|]. fold t. cbn [filter].
    destruct (Z.ltb_spec (area (psub b a) (lvec l)) 0) as [Q|Q].
    + rewrite line_test_ok by lia. rewrite (on_line_proper kb ke _ t) by now apply opp_div. destruct (on_line kb ke t); reflexivity.
    + rewrite line_test_ok by lia. fold t. destruct (on_line kb ke t); reflexivity.
  - unfold side, t. rewrite Qmult_comm, Qmult_div_r.
    + rewrite <- inject_Z_plus. change 0%Q with (inject_Z 0). apply inject_Z_injective. unfold turn, area, psub. cbn [px py]. ring.
    + change 0%Q with (inject_Z 0). rewrite inject_Z_injective. exact NZ.
Qed.

(** ** Points of the line in the polygon *)
(** The point with parameter [t] is not to the right of an edge. *)
Definition chord_in (l : line) (poly : list pt) (t : Q) : Prop := forall a b, poly_edge poly a b -> (0 <= side l a b t)%Q.
Definition height (l : line) (v : pt) : Z := area (lvec l) (psub v (lbegin l)).
Lemma orient_height l v : orient_pl v l = Z.sgn (height l v).
Proof. reflexivity. Qed.
Lemma side_zero_iff l u w t1 : (side l u w t1 == 0)%Q -> forall t, (side l u w t == (t - t1) * inject_Z (area (psub w u) (lvec l)))%Q.
Proof. unfold side. intros E t. lra. Qed.
Lemma edge_point l u w t1 a c : (side l u w t1 == 0)%Q -> area (psub w u) (lvec l) <> 0 ->
  (0 <= height l u /\ height l w <= 0) \/ (height l u <= 0 /\ 0 <= height l w) ->
  0 <= turn a c u -> 0 <= turn a c w -> (0 <= side l a c t1)%Q.
Proof.
  intros S NZ HH TU TW.
  assert (ID : (inject_Z (area (psub w u) (lvec l)) * side l a c t1 == inject_Z (height l u * turn a c w - height l w * turn a c u))%Q).
  { assert (R : (inject_Z (area (psub w u) (lvec l)) * side l a c t1
        == inject_Z (area (psub w u) (lvec l) * turn a c (lbegin l) - turn u w (lbegin l) * area (psub c a) (lvec l)))%Q).
    { unfold Zminus. rewrite inject_Z_plus, inject_Z_opp, !inject_Z_mult. unfold side in *. clear - S.
      set (K := inject_Z (area (psub w u) (lvec l))) in *. set (M := inject_Z (area (psub c a) (lvec l))) in *.
      assert (E : (t1 * K == - inject_Z (turn u w (lbegin l)))%Q) by lra.
      rewrite Qmult_plus_distr_r. setoid_replace (K * (t1 * M))%Q with ((t1 * K) * M)%Q by ring. rewrite E. ring. }
    rewrite R. apply inject_Z_injective. unfold height, turn, area, psub. cbn [px py]. ring. }
  assert (AW : area (psub w u) (lvec l) = height l u - height l w) by (unfold height, area, psub; cbn [px py]; ring).
  destruct HH as [[H1 H2]|[H1 H2]].
  - assert (P1 : 0 < area (psub w u) (lvec l)) by lia. assert (P2 : 0 <= height l u * turn a c w - height l w * turn a c u) by nia.
    apply inject_pos in P1. rewrite Zle_Qle in P2. change (inject_Z 0) with 0%Q in P2. rewrite <- ID in P2.
    apply Qnot_lt_le. intros N. apply (Qmult_lt_l _ _ _ P1) in N. lra.
  - assert (P1 : 0 < - area (psub w u) (lvec l)) by lia. assert (P2 : 0 <= - (height l u * turn a c w - height l w * turn a c u)) by nia.
    apply inject_pos in P1. rewrite Zle_Qle in P2. change (inject_Z 0) with 0%Q in P2. rewrite inject_Z_opp in P1, P2. rewrite <- ID in P2.
    apply Qnot_lt_le. intros N. apply (Qmult_lt_l _ _ _ P1) in N. lra.
Qed.
Lemma side_between l a c t1 t2 t : (0 <= side l a c t1)%Q -> (0 <= side l a c t2)%Q -> (t1 <= t)%Q -> (t <= t2)%Q -> (0 <= side l a c t)%Q.
Proof.
  unfold side. set (M := inject_Z (area (psub c a) (lvec l))). intros S1 S2 A B.
  destruct (Qlt_le_dec M 0) as [N|N].
  - assert (K : (t2 * - M >= t * - M)%Q) by (apply Qmult_le_compat_r; lra). lra.
  - assert (K : (t1 * M <= t * M)%Q) by (apply Qmult_le_compat_r; lra). lra.
Qed.
Section Chord.
Context (l : line) (poly : list pt) (C : convex poly) (ND : lvec l <> P 0 0).
Notation V := (cyc poly).
Lemma corner_identity m t : (inject_Z (height l (V m) * turn (V (m - 1)) (V m) (V (m + 1)))
  == - side l (V (m - 1)) (V m) t * inject_Z (area (lvec l) (psub (V (m + 1)) (V m)))
     - side l (V m) (V (m + 1)) t * inject_Z (area (psub (V m) (V (m - 1))) (lvec l)))%Q.
Proof.
  unfold side.
  assert (E : forall s1 s2 p q r1 r2 : Z, p * r1 + q * r2 = 0 ->
    (- (inject_Z s1 + t * inject_Z p) * inject_Z r1 - (inject_Z s2 + t * inject_Z q) * inject_Z r2 == inject_Z (- s1 * r1 - s2 * r2))%Q).
  { intros s1 s2 p q r1 r2 Z0. unfold Zminus. rewrite inject_Z_plus, inject_Z_opp, !inject_Z_mult, inject_Z_opp.
    assert (Q0 : (inject_Z p * inject_Z r1 + inject_Z q * inject_Z r2 == 0)%Q) by (rewrite <- !inject_Z_mult, <- inject_Z_plus, Z0; reflexivity).
    transitivity (- inject_Z s1 * inject_Z r1 + - (inject_Z s2 * inject_Z r2) - t * (inject_Z p * inject_Z r1 + inject_Z q * inject_Z r2))%Q; [ring|].
    rewrite Q0. ring. }
  rewrite E.
  - apply inject_Z_injective. unfold height, turn, area, psub. cbn [px py]. ring.
  - unfold area, psub. cbn [px py]. ring.
Qed.
Lemma chord_miss m t : (height l (V m) < 0 /\ area (lvec l) (psub (V (m + 1)) (V m)) <= 0 /\ area (psub (V m) (V (m - 1))) (lvec l) <= 0) \/
  (0 < height l (V m) /\ 0 <= area (lvec l) (psub (V (m + 1)) (V m)) /\ 0 <= area (psub (V m) (V (m - 1))) (lvec l)) -> ~ chord_in l poly t.
Proof.
  intros HH IN. pose proof (three_around poly C (m - 1)) as T. replace (m - 1 + 1) with m in T by lia. replace (m - 1 + 2) with (m + 1) in T by lia.
  pose proof (IN (V (m - 1)) (V m)) as S1. pose proof (IN (V m) (V (m + 1)) (cyc_edge poly m ltac:(destruct C; lia))) as S2.
  assert (E1 : poly_edge poly (V (m - 1)) (V m)) by (replace m with (m - 1 + 1) at 2 by lia; apply cyc_edge; destruct C; lia).
  specialize (S1 E1). pose proof (corner_identity m t) as ID. set (s1 := side l (V (m - 1)) (V m) t) in *. set (s2 := side l (V m) (V (m + 1)) t) in *.
  set (r1 := area (lvec l) (psub (V (m + 1)) (V m))) in *. set (r2 := area (psub (V m) (V (m - 1))) (lvec l)) in *.
  destruct HH as [(H1 & H2 & H3)|(H1 & H2 & H3)].
  - assert (K : 0 < - (height l (V m) * turn (V (m - 1)) (V m) (V (m + 1)))) by nia. apply inject_pos in K. rewrite inject_Z_opp, ID in K.
    rewrite Zle_Qle in H2, H3. change (inject_Z 0) with 0%Q in *.
    assert (0 <= s1 * - inject_Z r1)%Q by (apply Qmult_le_0_compat; lra). assert (0 <= s2 * - inject_Z r2)%Q by (apply Qmult_le_0_compat; lra). lra.
  - assert (K : 0 < height l (V m) * turn (V (m - 1)) (V m) (V (m + 1))) by nia. apply inject_pos in K. rewrite ID in K.
    rewrite Zle_Qle in H2, H3. change (inject_Z 0) with 0%Q in *.
    assert (0 <= s1 * inject_Z r1)%Q by (apply Qmult_le_0_compat; lra). assert (0 <= s2 * inject_Z r2)%Q by (apply Qmult_le_0_compat; lra). lra.
Qed.
Theorem intersect_polygon_spec kb ke :
  (exists t1 t2, intersect_polygon kb ke l poly = Ok (filter (on_line kb ke) [t1; t2]) /\ (t1 <= t2)%Q
     /\ forall t, chord_in l poly t <-> (t1 <= t /\ t <= t2)%Q)
  \/ (intersect_polygon kb ke l poly = Ok [] /\ forall t, ~ chord_in l poly t).
Proof.
  unfold intersect_polygon. assert (ND' : negb (peq (lvec l) (P 0 0)) = true).
  { destruct (lvec l) as [x y]. unfold peq. cbn [px py]. apply negb_true_iff, andb_false_iff. rewrite !Z.eqb_neq.
    destruct (Z.eq_dec x 0); destruct (Z.eq_dec y 0); auto; subst; congruence. }
  rewrite ND'. cbn [assert_then]. unfold assert_then.
  destruct (extreme_direction (lvec l) poly C ND) as (R & ER & RB & R1 & R2).
  destruct (extreme_direction (psub (P 0 0) (lvec l)) poly C) as (L & EL & LB & L1 & L2).
  { intros E. apply ND. destruct (lvec l) as [x y]. unfold psub in E. cbn [px py] in E. injection E as E1 E2. f_equal; lia. }
  rewrite ER. cbn [bind]. rewrite EL. cbn [bind]. cbv zeta. rewrite !orient_height.
  assert (HD : forall v w, height l v - height l w = area (lvec l) v - area (lvec l) w) by (intros; unfold height, area, psub; cbn [px py]; ring).
  assert (NEG : forall v, area (psub (P 0 0) (lvec l)) v = - area (lvec l) v) by (intros; unfold area, psub; cbn [px py]; ring).
  assert (HR : forall w, In w poly -> height l (vertex poly R) <= height l w).
  { intros w I. specialize (R1 w I). pose proof (HD (vertex poly R) w). lia. }
  assert (HL : forall w, In w poly -> height l w <= height l (vertex poly L)).
  { intros w I. specialize (L1 w I). rewrite !NEG in L1. pose proof (HD (vertex poly L) w). lia. }
  rewrite NEG, NEG in L2.
  assert (VI : forall i, In (V i) poly) by (intros; now apply V_in).
  assert (VV : forall i, (i < length poly)%nat -> In (vertex poly i) poly) by (intros i I; unfold vertex; now apply nth_In).
  assert (LEN : (3 <= length poly)%nat) by (destruct C; lia).
  assert (AD : forall v w, area (lvec l) (psub v w) = area (lvec l) v - area (lvec l) w) by (intros; unfold area, psub; cbn [px py]; ring).
  assert (AD' : forall v w, area (psub v w) (lvec l) = area (lvec l) w - area (lvec l) v) by (intros; unfold area, psub; cbn [px py]; ring).
  destruct (Z.eqb_spec (Z.sgn (height l (vertex poly L))) o_left) as [QL|QL].
  { right. split; [reflexivity|]. intros t. apply (chord_miss (Z.of_nat L)). left. rewrite AD, AD'. rewrite vertex_V in QL, L1, L2 by auto.
    unfold o_left in QL. specialize (L1 _ (VI (Z.of_nat L + 1))). rewrite !NEG in L1. lia. }
  destruct (Z.eqb_spec (Z.sgn (height l (vertex poly R))) o_right) as [QR|QR].
  { right. split; [reflexivity|]. intros t. apply (chord_miss (Z.of_nat R)). right. rewrite AD, AD'. rewrite vertex_V in QR, R1, R2 by auto.
    unfold o_right in QR. specialize (R1 _ (VI (Z.of_nat R + 1))). lia. }
  cbn [orb]. left. unfold o_left, o_right in *.
  assert (LR : height l (vertex poly R) < height l (vertex poly L)).
  { specialize (HL _ (VI (Z.of_nat R - 1))). pose proof (HD (vertex poly R) (V (Z.of_nat R - 1))). lia. }
  assert (DM : forall i j, (i < length poly)%nat -> (j < length poly)%nat -> (cyclic_minus (length poly) i j <= length poly)%nat).
  { intros i j I J. unfold cyclic_minus. destruct (Nat.leb_spec j i); lia. }
  destruct (chain_loop_spec l poly (Z.sgn (height l (vertex poly L))) LEN (length poly) L R) as (u1 & E1 & U1 & S1 & S1'); auto.
  { rewrite orient_height. lia. }
  destruct (chain_loop_spec l poly (Z.sgn (height l (vertex poly R))) LEN (length poly) R L) as (u2 & E2 & U2 & S2 & S2'); auto.
  { rewrite orient_height. lia. }
  unfold intersect_chain. rewrite E1. cbn [bind]. rewrite E2. cbn [bind].
  destruct (plus_one poly u1 U1) as [P1 _], (plus_one poly u2 U2) as [P2 _]. rewrite P1, P2 in *. clear P1 P2.
  rewrite !vertex_V in * by auto. rewrite !orient_height in *.
  set (a1 := V (Z.of_nat u1)) in *. set (b1 := V (Z.of_nat u1 + 1)) in *. set (a2 := V (Z.of_nat u2)) in *. set (b2 := V (Z.of_nat u2 + 1)) in *.
  assert (I1 : In a1 poly /\ In b1 poly /\ In a2 poly /\ In b2 poly) by (repeat split; apply VI). destruct I1 as (Ia1 & Ib1 & Ia2 & Ib2).
  assert (X1 : 0 <= height l a1 /\ height l b1 <= 0 /\ height l b1 < height l a1).
  { pose proof (HL a1 Ia1). pose proof (HL b1 Ib1). lia. }
  assert (X2 : height l a2 <= 0 /\ 0 <= height l b2 /\ height l a2 < height l b2).
  { pose proof (HR a2 Ia2). pose proof (HR b2 Ib2). lia. }
  pose proof (HD a1 b1) as W1. pose proof (HD a2 b2) as W2. rewrite <- AD' in W1, W2.
  destruct (cross_scalar_spec kb ke l a1 b1 ltac:(lia)) as [O1 Z1]. destruct (cross_scalar_spec kb ke l a2 b2 ltac:(lia)) as [O2 Z2].
  rewrite O1, O2. rewrite <- filter_app. cbn [app].
  set (t1 := (inject_Z _ / inject_Z _)%Q) in *. set (t2 := (_ / inject_Z (area (psub b2 a2) _))%Q) in *.
  assert (EDG1 : poly_edge poly a1 b1) by (apply cyc_edge; lia). assert (EDG2 : poly_edge poly a2 b2) by (apply cyc_edge; lia).
  assert (G1 : chord_in l poly t1).
  { intros a c E. apply (edge_point l a1 b1); auto; try lia; apply (convex_left_weak poly); auto. }
  assert (G2 : chord_in l poly t2).
  { intros a c E. apply (edge_point l a2 b2); auto; try lia; apply (convex_left_weak poly); auto. }
  assert (F1 : forall t, chord_in l poly t -> (t1 <= t)%Q).
  { intros t IN. specialize (IN a1 b1 EDG1). rewrite (side_zero_iff l a1 b1 t1 Z1 t) in IN. apply Qnot_lt_le. intros N.
    assert (K : 0 < area (psub b1 a1) (lvec l)) by lia. apply inject_pos in K.
    assert (N' : (0 < t1 - t)%Q) by lra. pose proof (Qmult_lt_0_compat _ _ N' K). lra. }
  assert (F2 : forall t, chord_in l poly t -> (t <= t2)%Q).
  { intros t IN. specialize (IN a2 b2 EDG2). rewrite (side_zero_iff l a2 b2 t2 Z2 t) in IN. apply Qnot_lt_le. intros N.
    assert (K : 0 < - area (psub b2 a2) (lvec l)) by lia. apply inject_pos in K. rewrite inject_Z_opp in K.
    assert (N' : (0 < t - t2)%Q) by lra. pose proof (Qmult_lt_0_compat _ _ N' K). lra. }
  exists t1, t2. split; [reflexivity|]. split; [now apply F1|]. intros t. split; [auto|]. intros [A B] a c E.
  apply (side_between l a c t1 t2); auto.
Qed.
End Chord.
