(** Orientation of polygons and sorting by polar angle. *)
From Coq Require Import ZArith List Bool Lia Permutation Sorted.
From Verif Require Import Outcome GeoModel HullProofs GeoProofs PolyModel PolyProofs WindProofs ConvexProofs.
Import ListNotations.
Local Open Scope Z_scope.

(** ** Orientation *)
Lemma cyc_edge poly i : (1 <= length poly)%nat -> poly_edge poly (cyc poly i) (cyc poly (i + 1)).
Proof.
  intros L. set (n := Z.of_nat (length poly)). assert (0 < n) by (unfold n; lia).
  assert (E : cyc poly i = cyc poly (i mod n)) by (unfold cyc; fold n; now rewrite Z.mod_mod by lia).
  assert (E2 : cyc poly (i + 1) = cyc poly (i mod n + 1)) by (unfold cyc; fold n; now rewrite Z.add_mod_idemp_l by lia).
  rewrite E, E2. pose proof (Z.mod_pos_bound i n H) as B. set (k := i mod n) in *. clearbody k.
  unfold poly_edge. rewrite <- cycpath_closed by (destruct poly; [cbn in L; lia | congruence]).
  assert (G : forall m j, 0 <= j < Z.of_nat m -> forall s, path_edge (cycpath poly m s) (cyc poly (s + j)) (cyc poly (s + j + 1))).
  { clear. induction m as [|m IH]; intros j J s; [lia|].
    change (cycpath poly (S m) s) with (cyc poly s :: cycpath poly m (s + 1)). apply path_edge_cons.
    destruct (Z.eq_dec j 0) as [->|N].
    - left. split; [f_equal; lia|]. destruct m; eexists; cbn; do 2 f_equal; lia.
    - right. replace (s + j) with ((s + 1) + (j - 1)) by lia. apply IH. lia. }
  specialize (G (length poly) k ltac:(unfold n in *; lia) 0). rewrite !Z.add_0_l in G. exact G.
Qed.
Lemma convex_corner poly i : convex poly -> 0 < turn (cyc poly (i - 1)) (cyc poly i) (cyc poly (i + 1)).
Proof.
  intros C. assert (L : (3 <= length poly)%nat) by (destruct C; auto).
  pose proof (cyc_edge poly (i - 1) ltac:(lia)) as E. replace (i - 1 + 1) with i in E by lia.
  destruct (convex_edge poly _ _ C E) as (l1 & l2 & m & P1 & P2 & N & C' & H). apply H.
  assert (ND : NoDup poly).
  { destruct poly as [|x [|y l]]; [cbn in L; lia | cbn in L; lia|]. apply (convex_nodup x y [] l C). }
  assert (NE : forall j, 0 < j < Z.of_nat (length poly) -> cyc poly (i + 1) <> cyc poly (i + 1 - j)).
  { intros j J Q. unfold cyc in Q. set (n := Z.of_nat (length poly)) in *.
    pose proof (Z.mod_pos_bound (i + 1) n ltac:(lia)) as B1. pose proof (Z.mod_pos_bound (i + 1 - j) n ltac:(lia)) as B2.
    apply (proj1 (NoDup_nth poly (P 0 0)) ND) in Q; [|unfold n in *; lia | unfold n in *; lia].
    assert (M : (i + 1) mod n = (i + 1 - j) mod n) by lia.
    assert (D : (i + 1 - (i + 1 - j)) mod n = 0) by (rewrite Zminus_mod, M, Z.sub_diag; apply Z.mod_0_l; lia).
    replace (i + 1 - (i + 1 - j)) with j in D by lia. rewrite Z.mod_small in D by lia. lia. }
  assert (N1 : cyc poly (i + 1) <> cyc poly i) by (replace i with (i + 1 - 1) at 2 by lia; apply NE; lia).
  assert (N2 : cyc poly (i + 1) <> cyc poly (i - 1)) by (replace (i - 1) with (i + 1 - 2) by lia; apply NE; lia).
  assert (I : In (cyc poly (i + 1)) (cyc poly i :: m ++ [cyc poly (i - 1)])).
  { rewrite <- P2, in_app_iff. assert (In (cyc poly (i + 1)) poly).
    { unfold cyc. apply nth_In. pose proof (Z.mod_pos_bound (i + 1) (Z.of_nat (length poly)) ltac:(lia)). lia. }
    assert (H1 : In (cyc poly (i + 1)) (l1 ++ l2)) by (rewrite <- P1; exact H0). rewrite in_app_iff in H1. tauto. }
  cbn in I. rewrite in_app_iff in I. cbn in I. intuition congruence.
Qed.
Lemma cyc_rev poly i : (1 <= length poly)%nat -> cyc (rev poly) i = cyc poly (- i - 1).
Proof.
  intros L. unfold cyc. rewrite rev_length. set (n := Z.of_nat (length poly)). assert (0 < n) by (unfold n; lia).
  pose proof (Z.mod_pos_bound i n H) as B. rewrite rev_nth by (unfold n in *; lia). f_equal.
  assert (E : (- i - 1) mod n = n - 1 - i mod n).
  { rewrite (Z.div_mod i n) at 1 by lia. replace (- (n * (i / n) + i mod n) - 1) with (n - 1 - i mod n + (- (i / n) - 1) * n) by ring.
    rewrite Z.mod_add by lia. apply Z.mod_small. lia. }
  rewrite E. unfold n in *. lia.
Qed.
Lemma orient_corner poly i : convex poly -> orient3 (cyc poly (i - 1)) (cyc poly i) (cyc poly (i + 1)) = o_left.
Proof.
  intros C. rewrite orient3_turn. pose proof (convex_corner poly i C) as H.
  assert (E : turn (cyc poly (i + 1)) (cyc poly i) (cyc poly (i - 1)) = - turn (cyc poly (i - 1)) (cyc poly i) (cyc poly (i + 1)))
    by (unfold turn; ring). unfold o_left. lia.
Qed.
Lemma orient_corner_rev poly i : convex poly ->
  orient3 (cyc (rev poly) (i - 1)) (cyc (rev poly) i) (cyc (rev poly) (i + 1)) = o_right.
Proof.
  intros C. assert (L : (3 <= length poly)%nat) by (destruct C; auto). rewrite !cyc_rev by lia.
  pose proof (convex_corner poly (- i - 1) C) as H. rewrite orient3_turn.
  replace (- (i + 1) - 1) with (- i - 1 - 1) by lia. replace (- (i - 1) - 1) with (- i - 1 + 1) by lia. unfold o_right. lia.
Qed.
Theorem orientation_simple_convex poly : convex poly ->
  orientation_simple poly = Ok o_left /\ orientation_simple (rev poly) = Ok o_right.
Proof.
  intros C. assert (L : (3 <= length poly)%nat) by (destruct C; auto). split.
  - destruct poly as [|v l]; [cbn in L; lia|]. unfold orientation_simple. f_equal. now apply orient_corner.
  - destruct (rev poly) as [|v l] eqn:E; [apply (f_equal (@length pt)) in E; rewrite rev_length in E; cbn in E; lia|].
    unfold orientation_simple. rewrite <- E. f_equal. now apply orient_corner_rev.
Qed.
Theorem orientation_convex_convex poly : convex poly ->
  orientation_convex poly = o_left /\ orientation_convex (rev poly) = o_right.
Proof.
  intros C. assert (L : (3 <= length poly)%nat) by (destruct C; auto). split.
  - pose proof (orient_corner poly 1 C) as H. destruct poly as [|a [|b [|c l]]]; cbn in L; try lia.
    unfold orientation_convex. rewrite <- H. unfold cyc. set (n := Z.of_nat _) in *. assert (3 <= n) by (unfold n; cbn [length]; lia).
    rewrite !Z.mod_small by lia. reflexivity.
  - pose proof (orient_corner_rev poly 1 C) as H. assert (L' : (3 <= length (rev poly))%nat) by now rewrite rev_length.
    destruct (rev poly) as [|a [|b [|c l]]]; cbn in L'; try lia.
    unfold orientation_convex. rewrite <- H. unfold cyc. set (n := Z.of_nat _) in *. assert (3 <= n) by (unfold n; cbn [length]; lia).
    rewrite !Z.mod_small by lia. reflexivity.
Qed.

(** ** Sorting by angle *)
(** 0 for the origin, 1 for angles from 0 to pi, 2 for angles from pi to 2 pi. *)
Definition half (p : pt) : Z :=
  if (px p =? 0) && (py p =? 0) then 0 else if (0 <? py p) || ((py p =? 0) && (0 <? px p)) then 1 else 2.
(** Polar angle of the first is not greater. *)
Definition angle_le (p q : pt) : Prop :=
  half p < half q \/ (half p = half q /\ 0 <= px p * py q - py p * px q).
Lemma left_turn_spec l r : left_turn l r = (0 <? px l * py r - py l * px r).
Proof.
  unfold left_turn, orient, area, o_left. destruct (Z.ltb_spec 0 (px l * py r - py l * px r)).
  - apply Z.eqb_eq. rewrite Z.sgn_neg; lia.
  - apply Z.eqb_neq. lia.
Qed.
Lemma half_trans p q r : half p = half q -> half q = half r ->
  0 <= px p * py q - py p * px q -> 0 <= px q * py r - py q * px r -> 0 <= px p * py r - py p * px r.
Proof.
  intros A B H1 H2.
  assert (D : half q = 0 \/ half q = 1 \/ half q = 2).
  { unfold half. destruct (_ && _); [lia|]. destruct (_ || _); lia. }
  destruct D as [D|[D|D]].
  - assert (E : px p = 0 /\ py p = 0).
    { unfold half in A, D. destruct (Z.eqb_spec (px p) 0), (Z.eqb_spec (py p) 0); cbn in *; auto; exfalso;
      destruct ((0 <? py p) || _); rewrite D in A; lia. }
    destruct E as [-> ->]. lia.
  - (* the upper half plane: lexicographic with the coordinates exchanged *)
    assert (S : forall v, half v = 1 -> slex (py v) (px v)).
    { clear. intros v. unfold half, slex.
      destruct (Z.eqb_spec (px v) 0), (Z.eqb_spec (py v) 0), (Z.ltb_spec 0 (py v)), (Z.ltb_spec 0 (px v)); cbn; lia. }
    assert (W : forall v, half v = 1 -> lex (py v) (px v)) by (intros v Hv; specialize (S v Hv); unfold lex, slex in *; lia).
    pose proof (cone _ _ _ _ _ _ (W r ltac:(congruence)) (S q D) (W p ltac:(congruence))) as K. lia.
  - assert (S : forall v, half v = 2 -> slex (- py v) (- px v)).
    { clear. intros v. unfold half, slex.
      destruct (Z.eqb_spec (px v) 0), (Z.eqb_spec (py v) 0), (Z.ltb_spec 0 (py v)), (Z.ltb_spec 0 (px v)); cbn; lia. }
    assert (W : forall v, half v = 2 -> lex (- py v) (- px v)) by (intros v Hv; specialize (S v Hv); unfold lex, slex in *; lia).
    pose proof (cone _ _ _ _ _ _ (W r ltac:(congruence)) (S q D) (W p ltac:(congruence))) as K. lia.
Qed.
Lemma angle_le_trans p q r : angle_le p q -> angle_le q r -> angle_le p r.
Proof.
  unfold angle_le. intros [A|[A1 A2]] [B|[B1 B2]]; try (left; lia). right. split; [lia|]. eapply half_trans; eauto.
Qed.
Lemma insert_angle x : forall l, Forall (fun y => half y = half x) l -> StronglySorted angle_le l ->
  StronglySorted angle_le (insert left_turn x l).
Proof.
  intros l F S. induction S as [|y l S IH Fy]; cbn; [repeat constructor|]. inversion F as [|? ? Hy F']; subst.
  destruct (left_turn y x) eqn:E.
  - constructor; [now apply IH|]. rewrite insert_perm. constructor; auto.
    right. split; auto. rewrite left_turn_spec in E. apply Z.ltb_lt in E. lia.
  - rewrite left_turn_spec in E. apply Z.ltb_ge in E.
    assert (A : angle_le x y) by (right; split; lia).
    constructor; [now constructor|]. constructor; [exact A|]. eapply Forall_impl; [|exact Fy]. intros z. apply angle_le_trans. exact A.
Qed.
Lemma sort_angle c : forall l, Forall (fun y => half y = c) l -> StronglySorted angle_le (sort left_turn l).
Proof.
  induction l as [|x l IH]; intros F; [constructor|]. inversion F as [|? ? Hx F']; subst.
  change (sort left_turn (x :: l)) with (insert left_turn x (sort left_turn l)).
  apply insert_angle; [|now apply IH]. rewrite (sort_perm left_turn). exact F'.
Qed.
Lemma sorted_app (R : pt -> pt -> Prop) : forall l1 l2, StronglySorted R l1 -> StronglySorted R l2 ->
  (forall x y, In x l1 -> In y l2 -> R x y) -> StronglySorted R (l1 ++ l2).
Proof.
  induction l1 as [|a l1 IH]; intros l2 S1 S2 H; [exact S2|]. inversion S1; subst. cbn. constructor.
  - apply IH; auto. intros x y Hx Hy. apply H; auto. now right.
  - apply Forall_app. split; auto. apply Forall_forall. intros y Hy. apply H; auto. now left.
Qed.
Lemma filter_split (f : pt -> bool) l : Permutation (filter f l ++ filter (fun x => negb (f x)) l) l.
Proof.
  induction l as [|x l IH]; [reflexivity|]. cbn. destruct (f x); cbn; [now constructor|].
  rewrite <- Permutation_middle. now constructor.
Qed.
Lemma half_parts v : half v = 0 <-> (px v =? 0) && (py v =? 0) = true.
Proof.
  unfold half. destruct ((px v =? 0) && (py v =? 0)); [tauto|]. destruct (_ || _); split; intros; discriminate.
Qed.
Lemma half_upper v : (px v =? 0) && (py v =? 0) = false -> y_compare (P 0 0) v = (half v =? 1).
Proof.
  unfold half, y_compare. intros ->. cbn [px py]. rewrite (Z.eqb_sym 0 (py v)). destruct (_ || _); reflexivity.
Qed.
Theorem sort_by_angle_sorted pts : Permutation (sort_by_angle pts) pts /\ StronglySorted angle_le (sort_by_angle pts).
Proof.
  unfold sort_by_angle. set (o := fun x : pt => (px x =? 0) && (py x =? 0)). set (rest := filter (fun x => negb (o x)) pts).
  assert (R : forall x, In x rest -> o x = false) by (intros x H; apply filter_In in H as [_ H]; now destruct (o x)).
  assert (F0 : Forall (fun y => half y = 0) (filter o pts)).
  { apply Forall_forall. intros x H. apply filter_In in H as [_ H]. now apply half_parts. }
  assert (F1 : Forall (fun y => half y = 1) (filter (y_compare (P 0 0)) rest)).
  { apply Forall_forall. intros x H. apply filter_In in H as [H1 H2]. rewrite half_upper in H2 by now apply R. now apply Z.eqb_eq. }
  assert (F2 : Forall (fun y => half y = 2) (filter (fun x => negb (y_compare (P 0 0) x)) rest)).
  { apply Forall_forall. intros x H. apply filter_In in H as [H1 H2]. rewrite half_upper in H2 by now apply R.
    apply negb_true_iff, Z.eqb_neq in H2. specialize (R x H1). unfold o in R.
    unfold half in *. rewrite R in *. destruct (_ || _); congruence. }
  split.
  - rewrite (sort_perm left_turn), (sort_perm left_turn), filter_split. unfold rest. apply filter_split.
  - assert (I1 := proj1 (Forall_forall _ _) F1). assert (I2 := proj1 (Forall_forall _ _) F2). assert (I0 := proj1 (Forall_forall _ _) F0).
    apply sorted_app; [|apply sorted_app|].
    + clear -F0. induction F0 as [|x l Hx F IH]; constructor; auto. eapply Forall_impl; [|exact F].
      cbn. intros y Hy. right. split; [lia|]. apply half_parts, andb_true_iff in Hx. rewrite !Z.eqb_eq in Hx. destruct Hx as [-> ->]. lia.
    + eapply sort_angle; exact F1.
    + eapply sort_angle; exact F2.
    + intros x y Hx Hy. left. rewrite (sort_perm left_turn) in Hx. rewrite (sort_perm left_turn) in Hy. rewrite (I1 x Hx), (I2 y Hy). lia.
    + intros x y Hx Hy. left. rewrite in_app_iff in Hy. rewrite (sort_perm left_turn) in Hy. rewrite (sort_perm left_turn) in Hy.
      rewrite (I0 x Hx). destruct Hy as [Hy|Hy]; [rewrite (I1 y Hy) | rewrite (I2 y Hy)]; lia.
Qed.
(** What std::sort requires of the comparator, on the points it is given. *)
Theorem left_turn_order p q r : half p = half q -> half q = half r ->
  left_turn p p = false /\ (left_turn p q = true -> left_turn q p = false)
  /\ (left_turn p q = true -> left_turn q r = true -> left_turn p r = true)
  /\ (left_turn p q = false -> left_turn q p = false -> left_turn q r = false -> left_turn r q = false ->
      left_turn p r = false /\ left_turn r p = false).
Proof.
  intros A B. rewrite !left_turn_spec, ?Z.ltb_lt, ?Z.ltb_ge. split; [lia|]. split; [lia|]. split.
  - intros H1 H2. pose proof (half_trans p q r A B ltac:(lia) ltac:(lia)) as K.
    destruct (Z.eq_dec (px p * py r - py p * px r) 0) as [E|E]; [exfalso|lia].
    pose proof (half_trans r p q ltac:(congruence) A ltac:(lia) ltac:(lia)). lia.
  - intros H1 H2 H3 H4. pose proof (half_trans p q r A B ltac:(lia) ltac:(lia)).
    pose proof (half_trans r q p ltac:(congruence) ltac:(congruence) ltac:(lia) ltac:(lia)). lia.
Qed.

(** Sorting around another point. *)
Theorem around_parts pts o : Permutation (sort_by_angle_around pts o) pts
  /\ exists a b c, sort_by_angle_around pts o = a ++ b ++ c /\ (forall q, In q a <-> In q pts /\ q = o)
     /\ (forall q, In q b <-> In q pts /\ (py o < py q \/ (py q = py o /\ px o < px q)))
     /\ (forall q, In q c <-> In q pts /\ (py q < py o \/ (py q = py o /\ px q < px o))).
Proof.
  unfold sort_by_angle_around. split.
  - rewrite (sort_perm left_turn), (sort_perm left_turn), filter_split. apply filter_split.
  - eexists _, _, _. split; [reflexivity|].
    assert (E : forall q, peq o q = true <-> q = o).
    { intros [x y]. destruct o as [x' y']. unfold peq. cbn [px py]. rewrite andb_true_iff, !Z.eqb_eq. split; [intros [-> ->] | intros [= -> ->]]; auto. }
    assert (Y : forall q, y_compare o q = true <-> py o < py q \/ (py q = py o /\ px o < px q)).
    { intros q. unfold y_compare. rewrite orb_true_iff, andb_true_iff, !Z.ltb_lt, Z.eqb_eq. intuition. }
    assert (K : forall q, In q (filter (fun x => negb (peq o x)) pts) <-> In q pts /\ q <> o).
    { intros q. rewrite filter_In, negb_true_iff, <- not_true_iff_false, E. tauto. }
    split; [|split]; intros q.
    + rewrite filter_In, E. tauto.
    + rewrite (sort_perm left_turn), filter_In, K, Y. intuition; subst; lia.
    + rewrite (sort_perm left_turn), filter_In, K, negb_true_iff, <- not_true_iff_false, Y. split.
      * intros [[I N] Q]. split; auto. destruct q as [x y], o as [x' y']. cbn [px py] in *.
        assert (x <> x' \/ y <> y') by (destruct (Z.eq_dec x x'); destruct (Z.eq_dec y y'); auto; subst; congruence). lia.
      * intros [I Q]. repeat split; auto; [intros ->|]; lia.
Qed.
