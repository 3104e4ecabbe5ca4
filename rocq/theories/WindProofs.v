(** The winding number of points outside of a half plane, of convex polygons, and along
    segments that meet no edge. *)
From Coq Require Import ZArith List Bool Lia.
From Verif Require Import Outcome GeoModel HullProofs GeoProofs PolyModel PolyProofs.
Import ListNotations.
Local Open Scope Z_scope.

(** ** Sums of differences *)
Lemma wsum_telescope p (f : pt -> Z) d : forall l, l <> [] ->
  (forall a b, path_edge l a b -> contrib p a b = f b - f a) -> wsum p l = f (last l d) - f (hd d l).
Proof.
  induction l as [|a l IH]; intros N H; [congruence|]. destruct l as [|b l]; [cbn; lia|].
  change (wsum p (a :: b :: l)) with (contrib p a b + wsum p (b :: l)).
  rewrite IH; [|congruence|].
  - rewrite H by (apply path_edge_cons; left; eauto). change (last (a :: b :: l) d) with (last (b :: l) d). cbn [hd]. lia.
  - intros u v E. apply H. apply path_edge_cons. auto.
Qed.
Lemma closed_ends d poly : hd d (closed poly) = last (closed poly) d.
Proof. destruct poly as [|a l]; [reflexivity|]. unfold closed. cbn [firstn]. rewrite last_last. reflexivity. Qed.
Lemma wsum_closed_zero p (f : pt -> Z) poly :
  (forall a b, poly_edge poly a b -> contrib p a b = f b - f a) -> wsum p (closed poly) = 0.
Proof.
  intros H. destruct (closed poly) as [|x l] eqn:E; [reflexivity|]. rewrite <- E.
  rewrite (wsum_telescope p f x); [|rewrite E; congruence | exact H]. rewrite (closed_ends x). lia.
Qed.
Lemma wsum_closed_same p q (f : pt -> Z) poly :
  (forall a b, poly_edge poly a b -> contrib p a b - contrib q a b = f b - f a) ->
  wsum p (closed poly) = wsum q (closed poly).
Proof.
  assert (T : forall l d, l <> [] -> (forall a b, path_edge l a b -> contrib p a b - contrib q a b = f b - f a) ->
    wsum p l - wsum q l = f (last l d) - f (hd d l)).
  { clear. induction l as [|a l IH]; intros d N H; [congruence|]. destruct l as [|b l]; [cbn; lia|].
    change (wsum p (a :: b :: l)) with (contrib p a b + wsum p (b :: l)).
    change (wsum q (a :: b :: l)) with (contrib q a b + wsum q (b :: l)).
    specialize (IH d). change (last (a :: b :: l) d) with (last (b :: l) d).
    assert (contrib p a b - contrib q a b = f b - f a) by (apply H, path_edge_cons; left; eauto).
    assert (wsum p (b :: l) - wsum q (b :: l) = f (last (b :: l) d) - f (hd d (b :: l))).
    { apply IH; [congruence|]. intros u v E. apply H, path_edge_cons. auto. }
    cbn [hd] in *. lia. }
  intros H. destruct (closed poly) as [|x l] eqn:E; [reflexivity|]. rewrite <- E.
  assert (wsum p (closed poly) - wsum q (closed poly) = f (last (closed poly) x) - f (hd x (closed poly))).
  { apply T; [rewrite E; congruence | exact H]. }
  rewrite (closed_ends x) in H0. lia.
Qed.

(** ** A half plane away from the point *)
Lemma contrib_half p u v a b :
  0 < u * (px a - px p) + v * (py a - py p) -> 0 < u * (px b - px p) + v * (py b - py p) ->
  contrib p a b = (if (0 <? u) && negb (py b <? py p) then 1 else 0) - (if (0 <? u) && negb (py a <? py p) then 1 else 0).
Proof.
  intros A B. unfold contrib. unfold turn.
  set (ax := px a - px p) in *. set (ay := py a - py p) in *. set (bx := px b - px p) in *. set (bY := py b - py p) in *.
  replace ((px b - px a) * (py p - py a) - (py b - py a) * (px p - px a)) with (ax * bY - ay * bx)
    by (unfold ax, ay, bx, bY; ring).
  replace (py a <? py p) with (ay <? 0) by (unfold ay; destruct (Z.ltb_spec (py a) (py p)), (Z.ltb_spec (py a - py p) 0); lia).
  replace (py b <? py p) with (bY <? 0) by (unfold bY; destruct (Z.ltb_spec (py b) (py p)), (Z.ltb_spec (py b - py p) 0); lia).
  clearbody ax ay bx bY.
  destruct (Z.ltb_spec ay 0), (Z.ltb_spec bY 0); cbn [negb andb]; try (destruct (0 <? u); cbn; lia).
  - assert (K : u * (ax * bY - ay * bx) = bY * (u * ax + v * ay) + (- ay) * (u * bx + v * bY)) by ring.
    assert (0 < u * (ax * bY - ay * bx)) by nia.
    destruct (Z.ltb_spec 0 (ax * bY - ay * bx)), (Z.ltb_spec 0 u); cbn; try reflexivity; nia.
  - assert (K : u * (ay * bx - ax * bY) = (- bY) * (u * ax + v * ay) + ay * (u * bx + v * bY)) by ring.
    assert (0 < u * (ay * bx - ax * bY)) by nia.
    destruct (Z.ltb_spec (ax * bY - ay * bx) 0), (Z.ltb_spec 0 u); cbn; try reflexivity; nia.
Qed.
Lemma closed_In poly a : In a (closed poly) -> In a poly.
Proof. unfold closed. intros H. apply in_app_iff in H as [H|H]; auto. destruct poly; cbn in *; tauto. Qed.
Lemma poly_edge_In poly a b : poly_edge poly a b -> In a poly /\ In b poly.
Proof. intros H. apply path_edge_In in H as [A B]. split; now apply closed_In. Qed.
Lemma on_seg_half p a b u v : on_seg p a b ->
  0 < u * (px a - px p) + v * (py a - py p) -> 0 < u * (px b - px p) + v * (py b - py p) -> False.
Proof.
  intros (T & X & Y) A B. unfold turn in T.
  set (ax := px a - px p) in *. set (ay := py a - py p) in *. set (bx := px b - px p) in *. set (bY := py b - py p) in *.
  assert (C : ax * bY = ay * bx) by (unfold ax, ay, bx, bY; lia).
  assert (X' : ax * bx <= 0) by (unfold ax, bx; nia).
  assert (Y' : ay * bY <= 0) by (unfold ay, bY; nia). clearbody ax ay bx bY. clear T X Y.
  assert (K : 0 < (u * ax + v * ay) * (u * bx + v * bY)) by nia.
  assert (E : (u * ax + v * ay) * (u * bx + v * bY) = u * u * (ax * bx) + v * v * (ay * bY) + u * v * (ax * bY + ay * bx)) by ring.
  rewrite C in E. assert (S : (ay * bx) * (ay * bx) = (ax * bx) * (ay * bY)) by (rewrite <- C at 1; ring).
  set (w := ay * bx) in *. set (m := ax * bx) in *. set (n := ay * bY) in *.
  assert (Q : 0 < u * u * m + v * v * n + 2 * (u * v * w)) by nia. clear E K C A B.
  assert (m = 0 \/ m < 0) as [M|M] by lia.
  - rewrite M, Z.mul_0_l in S. apply Z.mul_eq_0 in S. assert (W : w = 0) by tauto. rewrite M, W in Q. nia.
  - assert (R : m * (u * u * m + v * v * n + 2 * (u * v * w)) =
      (u * m + v * w) * (u * m + v * w) + v * v * (m * n - w * w)) by ring.
    rewrite S, Z.sub_diag, Z.mul_0_r, Z.add_0_r in R.
    pose proof (Z.mul_neg_pos _ _ M Q). pose proof (Z.square_nonneg (u * m + v * w)). lia.
Qed.
Theorem winding_half_plane p poly u v :
  (forall q, In q poly -> 0 < u * (px q - px p) + v * (py q - py p)) -> winding_number p poly = Wind 0.
Proof.
  intros H. pose proof (winding_spec p poly) as S. destruct (winding_number p poly) as [|r].
  - destruct S as (a & b & E & O). apply poly_edge_In in E as [Ia Ib]. exfalso. eapply on_seg_half; eauto.
  - destruct S as [-> _]. f_equal.
    apply wsum_closed_zero with (f := fun b => if (0 <? u) && negb (py b <? py p) then 1 else 0).
    intros a b E. apply poly_edge_In in E as [Ia Ib]. eapply contrib_half; eauto.
Qed.

(** ** Points joined by a segment that meets no edge *)
(** A common point of two segments, with rational parameters [s / n] and [t / n]. *)
Definition meet (p q a b : pt) : Prop :=
  exists n s t, 0 < n /\ 0 <= s <= n /\ 0 <= t <= n
  /\ n * px p + s * (px q - px p) = n * px a + t * (px b - px a)
  /\ n * py p + s * (py q - py p) = n * py a + t * (py b - py a).
Lemma meet_swap p q a b : meet p q a b -> meet q p a b.
Proof.
  intros (n & s & t & N & S & T & X & Y). exists n, (n - s), t. repeat split; try lia.
Qed.
Lemma meet_swap2 p q a b : meet p q a b -> meet p q b a.
Proof.
  intros (n & s & t & N & S & T & X & Y). exists n, s, (n - t). repeat split; try lia.
Qed.
Lemma meet_cross p q a b : turn a b q <= 0 <= turn a b p -> turn p q a <= 0 <= turn p q b ->
  turn a b p <> turn a b q -> meet p q a b.
Proof.
  intros D E N. exists (turn a b p - turn a b q), (turn a b p), (- turn p q a).
  assert (turn a b p - turn a b q = turn p q b - turn p q a) by (unfold turn; ring).
  repeat split; try lia; unfold turn; ring.
Qed.
Lemma meet_cross2 p q a b : turn a b p <= 0 <= turn a b q -> turn p q b <= 0 <= turn p q a ->
  turn a b p <> turn a b q -> meet p q a b.
Proof.
  intros D E N. apply meet_swap. apply meet_cross; [lia | rewrite !(turn_swap p q); lia | lia].
Qed.
Definition strip (p q v : pt) : bool := (py p <=? py v) && (py v <? py q) && (turn p q v <? 0).
Lemma contrib_up p a b : py a <= py b ->
  contrib p a b = if (py a <? py p) && (py p <=? py b) && (0 <? turn a b p) then 1 else 0.
Proof.
  intros H. unfold contrib. destruct (Z.ltb_spec (py a) (py p)), (Z.ltb_spec (py b) (py p)), (Z.leb_spec (py p) (py b));
    cbn [negb andb]; try lia; try reflexivity.
Qed.
Lemma strip_arith (ay by_ py_ qy dp dq ea eb : Z) :
  dp - dq = eb - ea ->
  eb * (by_ - ay) = - ((qy - by_) * dp + (by_ - py_) * dq) ->
  ea * (by_ - ay) = - ((qy - ay) * dp + (ay - py_) * dq) ->
  dp * (qy - py_) = - ((by_ - py_) * ea + (py_ - ay) * eb) ->
  dq * (qy - py_) = - ((by_ - qy) * ea + (qy - ay) * eb) ->
  py_ <= qy -> ay <= by_ ->
  ~ (dq <= 0 <= dp /\ ea <= 0 <= eb /\ dp <> dq) -> ~ (dp <= 0 <= dq /\ eb <= 0 <= ea /\ dp <> dq) ->
  (if (ay <? py_) && (py_ <=? by_) && (0 <? dp) then 1 else 0) - (if (ay <? qy) && (qy <=? by_) && (0 <? dq) then 1 else 0)
  = (if (py_ <=? by_) && (by_ <? qy) && (eb <? 0) then 1 else 0) - (if (py_ <=? ay) && (ay <? qy) && (ea <? 0) then 1 else 0).
Proof.
  intros I0 I1 I2 I3 I4 Hpq Hab M1 M2.
  assert (S01 : ay < py_ -> py_ <= by_ < qy -> (0 < dp <-> eb < 0)).
  { intros A B. split; intros H.
    - apply Z.nle_gt. intros E. apply M1. clear M1 M2.
      assert (dq < 0) by (clear I2 I3 I4; nia). assert (ea < 0) by (clear I1 I2 I4; nia). lia.
    - apply Z.nle_gt. intros E. apply M2. clear M1 M2.
      assert (0 < dq) by (clear I2 I3 I4; nia). assert (0 < ea) by (clear I1 I2 I4; nia). lia. }
  assert (S02 : ay < py_ -> qy <= by_ -> (0 < dp <-> 0 < dq)).
  { intros A B. split; intros H.
    - apply Z.nle_gt. intros E. apply M1. clear M1 M2 S01 I3 I4.
      assert (0 <= eb) by (clear I2; nia). assert (ea < 0) by (clear I1; nia). lia.
    - apply Z.nle_gt. intros E. apply M2. clear M1 M2 S01 I3 I4.
      assert (eb <= 0) by (clear I2; nia). assert (0 < ea) by (clear I1; nia). lia. }
  assert (S11 : py_ <= ay -> by_ < qy -> (ea < 0 <-> eb < 0)).
  { intros A B. split; intros H.
    - apply Z.nle_gt. intros E. apply M1. clear M1 M2 S01 S02 I1 I2.
      assert (0 <= dp) by (clear I4; nia). assert (dq <= 0) by (clear I3; nia). lia.
    - apply Z.nle_gt. intros E. apply M2. clear M1 M2 S01 S02 I1 I2.
      assert (dp <= 0) by (clear I4; nia). assert (0 < dq) by (clear I3; nia). lia. }
  assert (S12 : py_ <= ay < qy -> qy <= by_ -> (0 < dq <-> ea < 0)).
  { intros A B. split; intros H.
    - apply Z.nle_gt. intros E. apply M2. clear M1 M2 S01 S02 S11.
      assert (dp <= 0) by (clear I1 I3 I4; nia). assert (eb < 0) by (clear I1 I2 I3; nia). lia.
    - apply Z.nle_gt. intros E. apply M1. clear M1 M2 S01 S02 S11.
      assert (0 < dp) by (clear I1 I3 I4; nia). assert (0 <= eb) by (clear I1 I2 I3; nia). lia. }
  clear I0 I1 I2 I3 I4 M1 M2.
  destruct (Z.ltb_spec ay py_) as [A1|A1], (Z.leb_spec py_ by_) as [B1|B1],
    (Z.ltb_spec ay qy) as [A2|A2], (Z.leb_spec qy by_) as [B2|B2],
    (Z.ltb_spec by_ qy) as [B3|B3], (Z.leb_spec py_ ay) as [A3|A3]; try lia; cbn [andb]; try reflexivity;
  destruct (Z.ltb_spec 0 dp) as [D1|D1], (Z.ltb_spec 0 dq) as [D2|D2], (Z.ltb_spec eb 0) as [E1|E1],
    (Z.ltb_spec ea 0) as [E2|E2]; cbn [andb]; try reflexivity; lia.
Qed.
Lemma contrib_strip p q a b : py p <= py q -> py a <= py b -> ~ meet p q a b ->
  contrib p a b - contrib q a b = (if strip p q b then 1 else 0) - (if strip p q a then 1 else 0).
Proof.
  intros Hpq Hab M. rewrite !contrib_up by auto. unfold strip.
  apply strip_arith; try (unfold turn; ring); auto.
  - intros (D & E & N). apply M. apply meet_cross; auto.
  - intros (D & E & N). apply M. apply meet_cross2; auto.
Qed.
Lemma on_seg_meet p q a b : on_seg p a b -> meet p q a b.
Proof.
  intros (T & X & Y). unfold turn in T.
  destruct (Z.lt_trichotomy (px a) (px b)) as [H|[H|H]].
  - exists (px b - px a), 0, (px p - px a). repeat split; try lia.
  - destruct (Z.lt_trichotomy (py a) (py b)) as [K|[K|K]].
    + exists (py b - py a), 0, (py p - py a). repeat split; try lia. 
    + exists 1, 0, 0. repeat split; lia.
    + exists (py a - py b), 0, (py a - py p). repeat split; try lia.
  - exists (px a - px b), 0, (px a - px p). repeat split; try lia.
Qed.
Theorem winding_segment p q poly : (forall a b, poly_edge poly a b -> ~ meet p q a b) ->
  exists n, winding_number p poly = Wind n /\ winding_number q poly = Wind n.
Proof.
  assert (W : forall p q, py p <= py q -> (forall a b, poly_edge poly a b -> ~ meet p q a b) ->
    wsum p (closed poly) = wsum q (closed poly)).
  { clear. intros p q H M. apply wsum_closed_same with (f := fun v => if strip p q v then 1 else 0).
    intros a b E. destruct (Z.le_ge_cases (py a) (py b)) as [L|L].
    - apply contrib_strip; auto.
    - rewrite (contrib_swap p b a), (contrib_swap q b a).
      pose proof (contrib_strip p q b a H L). 
      assert (~ meet p q b a) by (intros Q; apply meet_swap2 in Q; now apply (M a b E)). specialize (H0 H1). lia. }
  intros M. assert (M' : forall a b, poly_edge poly a b -> ~ meet q p a b).
  { intros a b E Q. apply meet_swap in Q. now apply (M a b E). }
  assert (E : wsum p (closed poly) = wsum q (closed poly)).
  { destruct (Z.le_ge_cases (py p) (py q)); [now apply W | symmetry; now apply W]. }
  exists (wsum p (closed poly)).
  pose proof (winding_spec p poly) as A. pose proof (winding_spec q poly) as B. split.
  - destruct (winding_number p poly) as [|r]; [|now destruct A as [-> _]].
    destruct A as (a & b & H & O). exfalso. apply (M a b H). now apply on_seg_meet.
  - rewrite E. destruct (winding_number q poly) as [|r]; [|now destruct B as [-> _]].
    destruct B as (a & b & H & O). exfalso. apply (M' a b H). now apply on_seg_meet.
Qed.

(** ** Convex polygons *)
Definition at_ (l : list pt) (i : nat) : pt := nth i l (P 0 0).
Definition convex (poly : list pt) : Prop :=
  (3 <= length poly)%nat /\
  forall i j k, (i < j < k)%nat -> (k < length poly)%nat -> 0 < turn (at_ poly i) (at_ poly j) (at_ poly k).
Lemma convex_rotate1 a l : convex (a :: l) -> convex (l ++ [a]).
Proof.
  intros [L H]. split; [rewrite app_length; cbn in *; lia|]. intros i j k I K.
  rewrite app_length in K. cbn [length] in K.
  assert (Q : forall m, (m < length l)%nat -> at_ (l ++ [a]) m = at_ (a :: l) (S m)).
  { intros m Hm. unfold at_. rewrite app_nth1 by lia. reflexivity. }
  rewrite (Q i), (Q j) by lia. destruct (Nat.eq_dec k (length l)) as [->|N].
  - replace (at_ (l ++ [a]) (length l)) with (at_ (a :: l) 0) by (unfold at_; rewrite nth_middle; reflexivity).
    rewrite <- turn_cyc. apply H; cbn [length]; lia.
  - rewrite (Q k) by lia. apply H; cbn [length]; lia.
Qed.
Lemma convex_rotate l1 : forall l2, convex (l1 ++ l2) -> convex (l2 ++ l1).
Proof.
  induction l1 as [|a l1 IH]; intros l2 H; [now rewrite app_nil_r|].
  cbn in H. apply convex_rotate1 in H. rewrite <- app_assoc in H. apply IH in H.
  rewrite <- app_assoc in H. exact H.
Qed.
Lemma convex_triple poly l1 a l2 b l3 c l4 : convex poly -> poly = l1 ++ a :: l2 ++ b :: l3 ++ c :: l4 -> 0 < turn a b c.
Proof.
  intros [L H] ->.
  assert (A : at_ (l1 ++ a :: l2 ++ b :: l3 ++ c :: l4) (length l1) = a) by (unfold at_; now rewrite nth_middle).
  assert (B : at_ (l1 ++ a :: l2 ++ b :: l3 ++ c :: l4) (length (l1 ++ a :: l2)) = b).
  { unfold at_. replace (l1 ++ a :: l2 ++ b :: l3 ++ c :: l4) with ((l1 ++ a :: l2) ++ b :: l3 ++ c :: l4)
      by (rewrite <- app_assoc; reflexivity). now rewrite nth_middle. }
  assert (C : at_ (l1 ++ a :: l2 ++ b :: l3 ++ c :: l4) (length (l1 ++ a :: l2 ++ b :: l3)) = c).
  { unfold at_. replace (l1 ++ a :: l2 ++ b :: l3 ++ c :: l4) with ((l1 ++ a :: l2 ++ b :: l3) ++ c :: l4)
      by (rewrite <- app_assoc; cbn; rewrite <- app_assoc; reflexivity). now rewrite nth_middle. }
  specialize (H (length l1) (length (l1 ++ a :: l2)) (length (l1 ++ a :: l2 ++ b :: l3))).
  rewrite A, B, C in H.
  apply H; rewrite ?app_length; cbn [length]; rewrite ?app_length; cbn [length]; rewrite ?app_length; cbn [length]; lia.
Qed.
(** Every edge is the closing one after a rotation. *)
Lemma edge_rotation poly a b : (2 <= length poly)%nat -> poly_edge poly a b ->
  exists l1 l2 m, poly = l1 ++ l2 /\ l2 ++ l1 = b :: m ++ [a].
Proof.
  intros L (l1 & l2 & E). unfold closed in E.
  destruct l2 as [|x l2] using rev_ind.
  - destruct poly as [|y poly]; [cbn in L; lia|]. cbn [firstn] in E.
    replace (l1 ++ [a; b]) with ((l1 ++ [a]) ++ [b]) in E by (rewrite <- app_assoc; reflexivity).
    apply app_inj_tail in E as [E ->]. exists [], (b :: poly).
    destruct l1 as [|z l1]; cbn in E; [injection E as -> ->; cbn in L; lia|]. injection E as -> ->.
    exists l1. split; [reflexivity|]. rewrite app_nil_r. reflexivity.
  - clear IHl2. destruct poly as [|y poly]; [cbn in L; lia|]. cbn [firstn] in E.
    replace (l1 ++ a :: b :: l2 ++ [x]) with ((l1 ++ a :: b :: l2) ++ [x]) in E by (rewrite <- app_assoc; reflexivity).
    apply app_inj_tail in E as [E _]. exists (l1 ++ [a]), (b :: l2), (l2 ++ l1).
    split; [rewrite E, <- app_assoc; reflexivity|]. cbn. rewrite <- app_assoc. reflexivity.
Qed.
Lemma convex_edge poly a b : convex poly -> poly_edge poly a b ->
  exists l1 l2 m, poly = l1 ++ l2 /\ l2 ++ l1 = b :: m ++ [a] /\ m <> [] /\ convex (b :: m ++ [a])
  /\ forall v, In v m -> 0 < turn a b v.
Proof.
  intros C E. destruct (edge_rotation poly a b) as (l1 & l2 & m & P1 & P2); auto; [destruct C; lia|].
  assert (C' : convex (b :: m ++ [a])) by (rewrite <- P2; apply convex_rotate; now rewrite <- P1).
  exists l1, l2, m. repeat split; auto.
  - intros ->. destruct C' as [L _]. cbn in L. lia.
  - apply C'.
  - apply C'.
  - intros v I. apply in_split in I as (m1 & m2 & ->). rewrite turn_cyc.
    apply (convex_triple _ [] b m1 v m2 a [] C'). rewrite <- app_assoc. reflexivity.
Qed.
Lemma convex_left poly a b v : convex poly -> poly_edge poly a b -> In v poly -> v <> a -> v <> b -> 0 < turn a b v.
Proof.
  intros C E I Na Nb. destruct (convex_edge poly a b C E) as (l1 & l2 & m & P1 & P2 & _ & _ & H). apply H.
  assert (In v (b :: m ++ [a])). { rewrite <- P2, in_app_iff. rewrite P1, in_app_iff in I. tauto. }
  cbn in H0. rewrite in_app_iff in H0. cbn in H0. intuition congruence.
Qed.
Lemma convex_left_weak poly a b v : convex poly -> poly_edge poly a b -> In v poly -> 0 <= turn a b v.
Proof.
  intros C E I. destruct (peq v a) eqn:A; [apply peq_spec in A; subst; unfold turn; lia|].
  destruct (peq v b) eqn:B; [apply peq_spec in B; subst; unfold turn; lia|].
  assert (0 < turn a b v); [|lia]. apply (convex_left poly); auto; intros ->.
  - assert (peq a a = true) by now apply peq_spec. congruence.
  - assert (peq b b = true) by now apply peq_spec. congruence.
Qed.
(** Right of an edge: outside. *)
Lemma convex_outside poly p a b : convex poly -> poly_edge poly a b -> turn a b p < 0 -> winding_number p poly = Wind 0.
Proof.
  intros C E T. apply winding_half_plane with (u := - (py b - py a)) (v := px b - px a).
  intros q I. pose proof (convex_left_weak poly a b q C E I) as Q. unfold turn in *. lia.
Qed.
(** On the line of an edge and not to the right of its neighbours: on the edge. *)
Lemma between_edges z a b c p : 0 < turn z a b -> 0 < turn a b c -> turn a b p = 0 ->
  0 <= turn z a p -> 0 <= turn b c p -> on_seg p a b.
Proof.
  intros T1 T2 P0 P1 P2.
  assert (X1 : (px p - px a) * turn z a b = (px b - px a) * turn z a p + (px a - px z) * - turn a b p) by (unfold turn; ring).
  assert (Y1 : (py p - py a) * turn z a b = (py b - py a) * turn z a p + (py a - py z) * - turn a b p) by (unfold turn; ring).
  assert (X2 : (px p - px b) * turn a b c = (px a - px b) * turn b c p + (px c - px b) * turn a b p) by (unfold turn; ring).
  assert (Y2 : (py p - py b) * turn a b c = (py a - py b) * turn b c p + (py c - py b) * turn a b p) by (unfold turn; ring).
  rewrite P0 in X1, Y1, X2, Y2. unfold on_seg. split; [exact P0|].
  set (t1 := turn z a b) in *. set (t2 := turn a b c) in *. set (s1 := turn z a p) in *. set (s2 := turn b c p) in *.
  clearbody t1 t2 s1 s2. clear P0. split.
  - destruct (Z.le_ge_cases (px a) (px b)); [assert (px a <= px p) by nia; assert (px p <= px b) by nia; lia|].
    assert (px p <= px a) by nia. assert (px b <= px p) by nia. lia.
  - destruct (Z.le_ge_cases (py a) (py b)); [assert (py a <= py p) by nia; assert (py p <= py b) by nia; lia|].
    assert (py p <= py a) by nia. assert (py b <= py p) by nia. lia.
Qed.
Lemma edge_neighbours poly l1 l2 a b m : poly = l1 ++ l2 -> l2 ++ l1 = b :: m ++ [a] -> m <> [] ->
  exists z c m1 m2, m = m1 ++ [z] /\ m = c :: m2 /\ poly_edge poly z a /\ poly_edge poly b c.
Proof.
  intros -> E N. destruct m as [|c m2]; [congruence|].
  destruct (exists_last N) as (m1 & z & M). exists z, c, m1, m2. split; [exact M|]. split; [reflexivity|].
  split; apply poly_edge_rotate; rewrite E; unfold poly_edge, path_edge, closed.
  - exists (b :: m1), [b]. rewrite M. cbn. rewrite <- !app_assoc. reflexivity.
  - exists [], (m2 ++ [a; b]). cbn. rewrite <- !app_assoc. reflexivity.
Qed.
Lemma convex_border poly p a b : convex poly -> poly_edge poly a b -> turn a b p = 0 ->
  (forall u v, poly_edge poly u v -> 0 <= turn u v p) -> winding_number p poly = Boundary.
Proof.
  intros C E T H. destruct (convex_edge poly a b C E) as (l1 & l2 & m & P1 & P2 & N & C' & L).
  destruct (edge_neighbours poly l1 l2 a b m P1 P2 N) as (z & c & m1 & m2 & M1 & M2 & E1 & E2).
  assert (O : on_seg p a b).
  { apply (between_edges z a b c); auto.
    - rewrite turn_cyc. apply L. rewrite M1, in_app_iff. cbn. auto.
    - apply L. rewrite M2. cbn. auto. }
  pose proof (winding_spec p poly) as S. destruct (winding_number p poly) as [|r]; [reflexivity|].
  destruct S as [_ S]. exfalso. now apply (S a b E).
Qed.

(** Upward edges. *)
Definition upward (p a b : pt) : Prop := py a < py p /\ py p <= py b.
Lemma path_upward p : forall l x, py x < py p -> (exists y, In y l /\ py p <= py y) ->
  exists a b, path_edge (x :: l) a b /\ upward p a b.
Proof.
  induction l as [|z l IH]; intros x X (y & I & Y); [destruct I|].
  destruct (Z.lt_ge_cases (py z) (py p)) as [Z1|Z1].
  - destruct I as [->|I]; [lia|]. destruct (IH z Z1) as (a & b & E & U); [eauto|].
    exists a, b. split; auto. apply path_edge_cons. auto.
  - exists x, z. split; [|split; auto]. apply path_edge_cons. left. eauto.
Qed.
Lemma poly_upward p poly x y : In x poly -> In y poly -> py x < py p -> py p <= py y ->
  exists a b, poly_edge poly a b /\ upward p a b.
Proof.
  intros Ix Iy X Y. apply in_split in Ix as (l1 & l2 & ->).
  destruct (path_upward p (l2 ++ l1 ++ [x]) x X) as (a & b & E & U).
  - exists y. split; auto. rewrite !in_app_iff in *. cbn in *. intuition (subst; lia).
  - exists a, b. split; auto. apply poly_edge_rotate. unfold poly_edge, closed. cbn. rewrite <- !app_assoc. exact E.
Qed.
Lemma quad a b c d :
  turn b c d * py a + turn d a b * py c = turn c d a * py b + turn a b c * py d
  /\ turn b c d * px a + turn d a b * px c = turn c d a * px b + turn a b c * px d
  /\ turn b c d + turn d a b = turn c d a + turn a b c.
Proof. unfold turn. repeat split; ring. Qed.
Lemma one_upward p a b m : convex (b :: m ++ [a]) -> upward p a b ->
  forall c d, path_edge (b :: m ++ [a]) c d -> ~ upward p c d.
Proof.
  intros C [Ua Ub] c d (l1 & l2 & E) [Vc Vd].
  destruct l1 as [|b' s]; cbn in E; injection E as -> E; [lia|].
  destruct l2 as [|a' r _] using rev_ind.
  - replace (s ++ [c; d]) with ((s ++ [c]) ++ [d]) in E by (rewrite <- app_assoc; reflexivity).
    apply app_inj_tail in E as [_ ->]. lia.
  - replace (s ++ c :: d :: r ++ [a']) with ((s ++ c :: d :: r) ++ [a']) in E by (rewrite <- app_assoc; reflexivity).
    apply app_inj_tail in E as [-> ->].
    replace (b' :: (s ++ c :: d :: r) ++ [a']) with ([] ++ b' :: s ++ c :: [] ++ d :: r ++ [a']) in C
      by (cbn; rewrite <- app_assoc; reflexivity).
    assert (T1 : 0 < turn b' c d) by (eapply convex_triple; [exact C | reflexivity]).
    assert (T2 : 0 < turn c d a').
    { eapply (convex_triple _ (b' :: s) c [] d r a' []); [exact C | cbn; rewrite <- ?app_assoc; reflexivity]. }
    assert (T3 : 0 < turn b' d a').
    { eapply (convex_triple _ [] b' (s ++ [c]) d r a' []); [exact C | cbn; rewrite <- ?app_assoc; reflexivity]. }
    assert (T4 : 0 < turn b' c a').
    { eapply (convex_triple _ [] b' s c (d :: r) a' []); [exact C | cbn; rewrite <- ?app_assoc; reflexivity]. }
    destruct (quad b' c d a') as (Q & _ & S). rewrite (turn_cyc a' b' c) in *.
    rewrite <- (turn_cyc b' d a') in *. nia.
Qed.
Lemma top_vertex (f : pt -> Z) : forall l x, exists t, In t (x :: l) /\ forall v, In v (x :: l) -> f v <= f t.
Proof.
  induction l as [|y l IH]; intros x.
  - exists x. split; [left; auto|]. intros v [->|[]]. lia.
  - destruct (IH y) as (t & I & T). destruct (Z.le_ge_cases (f x) (f t)) as [L|L].
    + exists t. split; [right; exact I|]. intros v [->|Iv]; auto.
    + exists x. split; [left; auto|]. intros v [->|Iv]; [lia|]. specialize (T v Iv). lia.
Qed.
Lemma corner_inside (f : pt -> Z) s t u p : (exists al be, (al <> 0 \/ be <> 0) /\ forall q, f q = al * px q + be * py q) ->
  f s <= f t -> f u <= f t -> f t <= f p -> 0 < turn s t u -> 0 < turn s t p -> 0 < turn t u p -> False.
Proof.
  intros (al & be & NZ & F) S U Q T1 T2 T3.
  assert (K : turn t u p * (f s - f t) + turn s t p * (f u - f t) = turn s t u * (f p - f t)).
  { rewrite !F. unfold turn. ring. }
  assert (turn t u p * (f s - f t) <= 0) by nia. assert (turn s t p * (f u - f t) <= 0) by nia.
  assert (0 <= turn s t u * (f p - f t)) by nia.
  assert (Hs : f s = f t) by nia. assert (Hu : f u = f t) by nia. assert (Hp : f p = f t) by nia.
  rewrite !F in Hs, Hu, Hp.
  assert (E1 : al * (px s - px t) + be * (py s - py t) = 0) by lia.
  assert (E2 : al * (px u - px t) + be * (py u - py t) = 0) by lia.
  assert (A : al * turn s t u = 0).
  { replace (al * turn s t u) with ((al * (px u - px t) + be * (py u - py t)) * (py s - py t)
      - (al * (px s - px t) + be * (py s - py t)) * (py u - py t)) by (unfold turn; ring). rewrite E1, E2. ring. }
  assert (B : be * turn s t u = 0).
  { replace (be * turn s t u) with ((al * (px s - px t) + be * (py s - py t)) * (px u - px t)
      - (al * (px u - px t) + be * (py u - py t)) * (px s - px t)) by (unfold turn; ring). rewrite E1, E2. ring. }
  assert (al = 0) by nia. assert (be = 0) by nia. lia.
Qed.
Lemma vertex_corner poly t : convex poly -> In t poly ->
  exists s u, poly_edge poly s t /\ poly_edge poly t u /\ 0 < turn s t u.
Proof.
  intros C I. destruct (closed_start poly t) as [u E]; [unfold closed; apply in_app_iff; auto | destruct C; lia|].
  destruct (convex_edge poly t u C E) as (l1 & l2 & m & P1 & P2 & N & C' & L).
  destruct (edge_neighbours poly l1 l2 t u m P1 P2 N) as (z & c & m1 & m2 & M1 & M2 & E1 & E2).
  exists z, u. repeat split; auto. rewrite turn_cyc. apply L. rewrite M1, in_app_iff. cbn. auto.
Qed.
Lemma convex_extent poly p (f : pt -> Z) : convex poly ->
  (exists al be, (al <> 0 \/ be <> 0) /\ forall q, f q = al * px q + be * py q) ->
  (forall u v, poly_edge poly u v -> 0 < turn u v p) -> exists v, In v poly /\ f p < f v.
Proof.
  intros C F H. destruct poly as [|x l] eqn:E; [destruct C as [L _]; cbn in L; lia|]. rewrite <- E in *.
  destruct (top_vertex f l x) as (t & I & T). rewrite <- E in *.
  exists t. split; auto. apply Z.nle_gt. intros G.
  destruct (vertex_corner poly t C I) as (s & u & E1 & E2 & K).
  destruct (poly_edge_In poly s t E1) as [Is _]. destruct (poly_edge_In poly t u E2) as [_ Iu].
  apply (corner_inside f s t u p F); auto.
Qed.
Lemma contrib_zero p a b : ~ upward p a b -> 0 < turn a b p -> contrib p a b = 0.
Proof.
  unfold upward, contrib. intros U T.
  destruct (Z.ltb_spec (py a) (py p)), (Z.ltb_spec (py b) (py p)), (Z.ltb_spec 0 (turn a b p)),
    (Z.ltb_spec (turn a b p) 0); cbn; lia.
Qed.
Lemma wsum_zero p l : (forall a b, path_edge l a b -> contrib p a b = 0) -> wsum p l = 0.
Proof.
  induction l as [|a l IH]; intros H; [reflexivity|]. destruct l as [|b l]; [reflexivity|].
  change (wsum p (a :: b :: l)) with (contrib p a b + wsum p (b :: l)).
  rewrite H, IH; [reflexivity| |apply path_edge_cons; left; eauto].
  intros u v E. apply H, path_edge_cons. auto.
Qed.
Lemma convex_inside poly p : convex poly -> (forall u v, poly_edge poly u v -> 0 < turn u v p) ->
  winding_number p poly = Wind 1.
Proof.
  intros C H. pose proof (winding_spec p poly) as S. destruct (winding_number p poly) as [|r].
  - destruct S as (a & b & E & (T & _)). specialize (H a b E). lia.
  - destruct S as [-> _]. f_equal.
    destruct (convex_extent poly p py C) as (y & Iy & Y); [exists 0, 1; split; [lia | intros; lia] | auto |].
    destruct (convex_extent poly p (fun q => - py q) C) as (x & Ix & X); [exists 0, (-1); split; [lia | intros; lia] | auto |].
    destruct (poly_upward p poly x y Ix Iy) as (a & b & E & U); try lia.
    destruct (convex_edge poly a b C E) as (l1 & l2 & m & P1 & P2 & N & C' & L).
    rewrite P1, wsum_rotate, P2. unfold closed. cbn [firstn app]. rewrite <- app_assoc. cbn [app].
    change (b :: m ++ [a; b]) with ((b :: m) ++ a :: [b]). rewrite (wsum_app p a [b] (b :: m)).
    rewrite wsum_zero.
    + change (wsum p [a; b]) with (contrib p a b + 0). unfold contrib, upward in *. specialize (H a b E).
      destruct (Z.ltb_spec (py a) (py p)), (Z.ltb_spec (py b) (py p)), (Z.ltb_spec 0 (turn a b p)); cbn; lia.
    + intros c d Ecd. apply contrib_zero; [now apply (one_upward p a b m C' U)|]. apply H.
      rewrite P1. apply poly_edge_rotate. rewrite P2. unfold poly_edge, closed. cbn [firstn app].
      rewrite <- app_assoc. cbn [app]. change (b :: m ++ [a; b]) with ((b :: m) ++ a :: [b]).
      apply path_edge_app. left. exact Ecd.
Qed.

(** The three cases. *)
Lemma edges_dec poly p : (forall u v, poly_edge poly u v -> 0 < turn u v p)
  \/ (exists u v, poly_edge poly u v /\ turn u v p < 0)
  \/ ((forall u v, poly_edge poly u v -> 0 <= turn u v p) /\ exists u v, poly_edge poly u v /\ turn u v p = 0).
Proof.
  unfold poly_edge. induction (closed poly) as [|a l IH]; [left; intros u v H; now apply path_edge_nil in H|].
  destruct l as [|b l].
  - left. intros u v H. apply path_edge_cons in H as [[_ [r E]]|H]; [discriminate | now apply path_edge_nil in H].
  - assert (Q : forall u v, path_edge (a :: b :: l) u v <-> (u = a /\ v = b) \/ path_edge (b :: l) u v).
    { intros u v. rewrite path_edge_cons. split; intros [[H1 H2]|H]; auto; left.
      - destruct H2 as [r E]. injection E as -> _. auto.
      - subst. eauto. }
    destruct (Z.lt_trichotomy (turn a b p) 0) as [T|[T|T]].
    + right. left. exists a, b. split; auto. apply Q. auto.
    + destruct IH as [A|[(u & v & E & L)|[A (u & v & E & L)]]].
      * right. right. split; [|exists a, b; split; auto; apply Q; auto].
        intros u v H. apply Q in H as [[-> ->]|H]; [lia|]. specialize (A u v H). lia.
      * right. left. exists u, v. split; auto. apply Q. auto.
      * right. right. split; [|exists a, b; split; auto; apply Q; auto].
        intros u' v' H. apply Q in H as [[-> ->]|H]; [lia|]. auto.
    + destruct IH as [A|[(u & v & E & L)|[A (u & v & E & L)]]].
      * left. intros u v H. apply Q in H as [[-> ->]|H]; auto.
      * right. left. exists u, v. split; auto. apply Q. auto.
      * right. right. split; [|exists u, v; split; auto; apply Q; auto].
        intros u' v' H. apply Q in H as [[-> ->]|H]; [lia|]. auto.
Qed.
Theorem convex_winding poly p : convex poly ->
  (winding_number p poly = Wind 1 <-> forall u v, poly_edge poly u v -> 0 < turn u v p)
  /\ (winding_number p poly = Wind 0 <-> exists u v, poly_edge poly u v /\ turn u v p < 0)
  /\ (winding_number p poly = Boundary <-> exists u v, poly_edge poly u v /\ on_seg p u v)
  /\ (winding_number p poly = Boundary <->
       (forall u v, poly_edge poly u v -> 0 <= turn u v p) /\ exists u v, poly_edge poly u v /\ turn u v p = 0).
Proof.
  intros C. pose proof (edges_dec poly p) as D. pose proof (winding_spec p poly) as S.
  destruct D as [A|[(u & v & E & L)|[A (u & v & E & L)]]].
  - pose proof (convex_inside poly p C A) as W. rewrite W in *. split; [tauto|]. split.
    + split; [discriminate|]. intros (u & v & E & L). specialize (A u v E). lia.
    + split; (split; [discriminate|]).
      * intros (u & v & E & (L & _)). specialize (A u v E). lia.
      * intros (_ & u & v & E & L). specialize (A u v E). lia.
  - pose proof (convex_outside poly p u v C E L) as W. rewrite W in *. split.
    + split; [discriminate|]. intros A. specialize (A u v E). lia.
    + split; [split; eauto|]. split; (split; [discriminate|]).
      * intros (a & b & E' & O). exfalso. now apply (proj2 S a b E').
      * intros (A & _). specialize (A u v E). lia.
  - pose proof (convex_border poly p u v C E L A) as W. rewrite W in *. split.
    + split; [discriminate|]. intros A'. specialize (A' u v E). lia.
    + split; [split; [discriminate|]|].
      * intros (a & b & E' & O). specialize (A a b E'). lia.
      * split; split; eauto.
Qed.

(** ** Triangles *)
Lemma triangle_convex a b c : 0 < turn a b c -> convex [a; b; c].
Proof.
  intros H. split; [cbn; lia|]. intros i j k I K. cbn in K. assert (i = 0 /\ j = 1 /\ k = 2)%nat as (-> & -> & ->) by lia. exact H.
Qed.
Lemma triangle_edges a b c u v : poly_edge [a; b; c] u v <-> (u = a /\ v = b) \/ (u = b /\ v = c) \/ (u = c /\ v = a).
Proof.
  unfold poly_edge, closed. cbn [firstn app]. split.
  - intros H. apply path_edge_cons in H as [[-> [r E]]|H]; [injection E as -> _; auto|].
    apply path_edge_cons in H as [[-> [r E]]|H]; [injection E as -> _; auto|].
    apply path_edge_cons in H as [[-> [r E]]|H]; [injection E as -> _; auto|].
    apply path_edge_cons in H as [[-> [r E]]|H]; [discriminate | now apply path_edge_nil in H].
  - intros [[-> ->]|[[-> ->]|[-> ->]]]; [exists [], [c; a] | exists [a], [a] | exists [a; b], []]; reflexivity.
Qed.
Lemma within_triangle_unfold p a b c : within_triangle p [a; b; c] =
  let s0 := Z.sgn (turn a b p) in let s1 := Z.sgn (turn b c p) in let s2 := Z.sgn (turn c a p) in
  if (s0 =? s1) && (s1 =? s2) then Ok Inside
  else if (negb (s0 =? 0) && (s0 =? - s1)) || ((negb (s1 =? 0) && (s1 =? - s2)) || ((negb (s2 =? 0) && (s2 =? - s0)) || false))
  then Ok Outside else Ok Border.
Proof.
  unfold within_triangle. cbn [length negb Z.of_nat]. change (Z.of_nat 3 =? 3) with true. cbn [negb].
  change (cyc [a; b; c] (0 + 1)) with b. change (cyc [a; b; c] 0) with a.
  change (cyc [a; b; c] (1 + 1)) with c. change (cyc [a; b; c] 1) with b.
  change (cyc [a; b; c] (2 + 1)) with a. change (cyc [a; b; c] 2) with c.
  cbn [existsb]. rewrite !orient3_turn. unfold o_collinear.
  change (0 + 1 =? 3) with false. change (1 + 1 =? 3) with false. change (2 + 1 =? 3) with true.
  cbn iota. reflexivity.
Qed.
Theorem within_triangle_winding p a b c : turn a b c <> 0 -> within_triangle p [a; b; c] = Ok (within_simple p [a; b; c]).
Proof.
  assert (K : forall a b c, 0 < turn a b c -> within_triangle p [a; b; c] = Ok (within_simple p [a; b; c])).
  { clear. intros a b c H. rewrite within_triangle_unfold. cbn zeta. unfold within_simple.
    pose proof (triangle_convex a b c H) as C.
    assert (S : turn a b p + turn b c p + turn c a p = turn a b c) by (unfold turn; ring).
    destruct (edges_dec [a; b; c] p) as [A|[(u & v & E & L)|[A (u & v & E & L)]]].
    - rewrite (convex_inside _ p C A). assert (0 < turn a b p) by (apply A, triangle_edges; auto).
      assert (0 < turn b c p) by (apply A, triangle_edges; auto). assert (0 < turn c a p) by (apply A, triangle_edges; auto).
      rewrite !Z.sgn_pos by auto. reflexivity.
    - rewrite (convex_outside _ p u v C E L). apply triangle_edges in E.
      assert (X : forall x, (Z.sgn x = 1 /\ 0 < x) \/ (Z.sgn x = 0 /\ x = 0) \/ (Z.sgn x = -1 /\ x < 0)) by (intros; lia).
      destruct (X (turn a b p)) as [[-> ?]|[[-> ?]|[-> ?]]], (X (turn b c p)) as [[-> ?]|[[-> ?]|[-> ?]]],
        (X (turn c a p)) as [[-> ?]|[[-> ?]|[-> ?]]]; cbn; try reflexivity; exfalso; try lia;
        destruct E as [[-> ->]|[[-> ->]|[-> ->]]]; lia.
    - rewrite (convex_border _ p u v C E L A). assert (A1 : 0 <= turn a b p) by (apply A, triangle_edges; auto).
      assert (A2 : 0 <= turn b c p) by (apply A, triangle_edges; auto). assert (A3 : 0 <= turn c a p) by (apply A, triangle_edges; auto).
      apply triangle_edges in E.
      assert (X : forall x, 0 <= x -> (Z.sgn x = 1 /\ 0 < x) \/ (Z.sgn x = 0 /\ x = 0)) by (intros; lia).
      destruct (X _ A1) as [[-> ?]|[-> ?]], (X _ A2) as [[-> ?]|[-> ?]],
        (X _ A3) as [[-> ?]|[-> ?]]; cbn; try reflexivity; exfalso;
        destruct E as [[-> ->]|[[-> ->]|[-> ->]]]; lia. }
  intros N. destruct (Z.lt_trichotomy (turn a b c) 0) as [T|[T|T]]; [|congruence|auto].
  assert (T' : 0 < turn c b a) by (rewrite (turn_cyc c b a), turn_swap, turn_cyc in *; unfold turn in *; lia).
  specialize (K c b a T').
  assert (W : within_simple p [a; b; c] = within_simple p [c; b; a]).
  { unfold within_simple. change [c; b; a] with (rev [a; b; c]). rewrite winding_rev.
    destruct (winding_number p [a; b; c]) as [|[|n|n]]; reflexivity. }
  rewrite W, <- K, !within_triangle_unfold. cbn zeta. rewrite (turn_swap b c p), (turn_swap a b p), (turn_swap c a p).
  rewrite !Z.sgn_opp.
  assert (X : forall x, Z.sgn x = 1 \/ Z.sgn x = 0 \/ Z.sgn x = -1) by (intros; lia).
  destruct (X (turn a b p)) as [S0|[S0|S0]], (X (turn b c p)) as [S1|[S1|S1]], (X (turn c a p)) as [S2|[S2|S2]];
    rewrite S0, S1, S2; reflexivity.
Qed.
