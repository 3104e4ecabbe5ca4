(** C138: the closest pair and the largest distance over floating point numbers. *)
From Coq Require Import ZArith QArith Qround Qpower Qabs List Bool Lia Lqa Permutation.
From Verif Require Import Outcome FGeoModel FGeoProofs GeoModel HullProofs MGeoProofs PolyModel PolyProofs WindProofs NearestProofs ExtremeModel ExtremeProofs
  FPolyModel FPolyProofs PropFPoly FExtModel FExtProofs FNearModel FNearProofs.
From Verif Require PropPoly.
Import ListNotations.
Local Open Scope Z_scope.

(** ** Specification *)
(** [fin a]: the rational number of a finite number; [X p], [Y p]: of the coordinates; [finite p]: both are finite;
    [range f lo hi]: squares of numbers between 2^lo and 2^hi, and sums of two, neither underflow nor overflow;
    [gap lo hi d]: d is 0 or of a size between 2^lo and 2^hi; [apart lo hi points]: so are all differences of coordinates;
    [real_dist2 p q]: the square of the true distance; [sixth x] = x^6 (FNearProofs.v).  [two_in l p q]: p and q are at
    two positions of l.  [grid e p], [fine f e], [fit f pts]: PropFPoly.v. *)

(** Integers with differences of at most 2^w. *)
Definition within_power (w : Z) (pts : list pt) : Prop :=
  0 <= w /\ forall p q, In p pts -> In q pts -> Z.abs (px p - px q) <= 2 ^ w /\ Z.abs (py p - py q) <= 2 ^ w.

Lemma X_grid e p : X (grid e p) = (inject_Z (px p) * 2 ^ e)%Q. Proof. reflexivity. Qed.
Lemma Y_grid e p : Y (grid e p) = (inject_Z (py p) * 2 ^ e)%Q. Proof. reflexivity. Qed.
Lemma finite_grid e p : finite (grid e p). Proof. split; reflexivity. Qed.
Lemma grid_sub x y e : (inject_Z x * 2 ^ e - inject_Z y * 2 ^ e == inject_Z (x - y) * 2 ^ e)%Q.
Proof. unfold Z.sub. rewrite inject_Z_plus, inject_Z_opp. ring. Qed.
Lemma gap_eq lo hi a b : (a == b)%Q -> gap lo hi b -> gap lo hi a.
Proof. intros E. unfold gap. rewrite E. auto. Qed.
Lemma gap_grid e w k : 0 <= w -> Z.abs k <= 2 ^ w -> gap e (e + w) (inject_Z k * 2 ^ e)%Q.
Proof.
  intros W B. destruct (Z.eq_dec k 0) as [->|N]; [left; change (inject_Z 0) with 0%Q; ring|right].
  rewrite Qabs_Qmult, (Qabs_pos (2 ^ e)) by (pose proof (two_pos e); lra). change (Qabs (inject_Z k)) with (inject_Z (Z.abs k)).
  pose proof (two_pos e) as P. split.
  - setoid_replace (2 ^ e)%Q with (inject_Z 1 * 2 ^ e)%Q at 1 by (change (inject_Z 1) with 1%Q; ring).
    apply Qmult_le_compat_r; [rewrite <- Zle_Qle; lia|lra].
  - rewrite two_plus, (Qmult_comm (2 ^ e)). pose proof (two_Z w W) as TZ. rewrite <- TZ. apply Qmult_le_compat_r; [now rewrite <- Zle_Qle|lra].
Qed.
Lemma apart_grid e w pts : within_power w pts -> apart e (e + w) (map (grid e) pts).
Proof.
  intros [W B] p q P Q. apply in_map_iff in P as (a & <- & A). apply in_map_iff in Q as (b & <- & A'). destruct (B a b A A') as [B1 B2].
  rewrite !X_grid, !Y_grid. split; (eapply gap_eq; [apply grid_sub|]); now apply gap_grid.
Qed.
Lemma real_grid e p q : (real_dist2 (grid e p) (grid e q) == inject_Z (dist2 p q) * (2 ^ e * 2 ^ e))%Q.
Proof.
  unfold real_dist2. rewrite !X_grid, !Y_grid, !grid_sub. unfold dist2. rewrite inject_Z_plus, !inject_Z_mult. ring.
Qed.
Lemma sixth_ratio u t1 t2 : (0 < u)%Q -> (u <= 1 # 4)%Q -> (0 <= t2)%Q -> (16 * (t2 + 1) * u <= 1)%Q -> (t2 + 1 <= t1)%Q ->
  ~ (t1 * sixth (1 - u) <= t2 * sixth (1 + u))%Q.
Proof.
  intros U0 U1 T0 T1 T2 H.
  assert (A : (1 - 6 * u <= sixth (1 - u))%Q).
  { unfold sixth, cube. assert (C : (1 - 3 * u <= (1 - u) * ((1 - u) * (1 - u)))%Q) by nra.
    assert (C' : (0 <= 1 - 3 * u)%Q) by lra. nra. }
  assert (B : (sixth (1 + u) - sixth (1 - u) <= 15 * u)%Q).
  { unfold sixth, cube. setoid_replace ((1 + u) * ((1 + u) * (1 + u)) * ((1 + u) * ((1 + u) * (1 + u))) - (1 - u) * ((1 - u) * (1 - u)) * ((1 - u) * ((1 - u) * (1 - u))))%Q
      with (u * (12 + 40 * (u * u) + 12 * (u * u * (u * u))))%Q by ring.
    assert (S : (u * u <= 1 # 16)%Q) by nra. assert (S0 : (0 <= u * u)%Q) by nra. assert (S2 : (u * u * (u * u) <= 1 # 256)%Q) by nra. nra. }
  assert (P : (0 <= sixth (1 - u))%Q).
  { unfold sixth, cube. repeat apply Qmult_le_0_compat; lra. }
  set (a := sixth (1 - u)) in *. set (b := sixth (1 + u)) in *. clearbody a b.
  assert (L : ((t2 + 1) * a <= t2 * b)%Q) by nra.
  assert (L2 : (a <= t2 * (15 * u))%Q) by nra.
  nra.
Qed.

(** ** C138 *)
(** Roots are rounded to the nearest number. *)
Theorem C138_sqrt : forall f q, 1 <= prec f -> (0 < q)%Q -> exists r, fsqrt f (Fin q) = Fin r /\ (0 <= r)%Q /\ representable f r /\
  forall s, representable f s -> (0 <= s)%Q ->
    ((r < s)%Q -> (q <= ((r + s) / 2) * ((r + s) / 2))%Q) /\ ((s < r)%Q -> (((r + s) / 2) * ((r + s) / 2) <= q)%Q).
Proof.
  intros f q Hp Q0. destruct (sqrt_nearest f q Hp Q0) as (r & E & R0 & RR & N). exists r. split; [exact E|]. split; [exact R0|]. split; [exact RR|].
  intros s S S0. destruct (N s S S0) as [N1 N2].
  assert (H : (((r + s) / 2) * ((r + s) / 2) == (r + s) * (r + s) / 4)%Q) by field. rewrite H. split; intros L.
  - specialize (N1 L). apply Qle_shift_div_l; [reflexivity|]. lra.
  - specialize (N2 L). apply Qle_shift_div_r; [reflexivity|]. lra.
Qed.

(** The pair has the smallest distance as the library computes it. *)
Theorem C138_nearest : forall f lo hi points, range f lo hi -> Forall finite points -> apart lo hi points -> (2 <= length points)%nat ->
  exists p q, fnearest_pair f points = Ok (p, q) /\ two_in points p q /\
    forall a b l1 l2 l3, points = l1 ++ a :: l2 ++ b :: l3 ->
      (exists d, fdistance f a b = Fin d) /\ nless (fdistance f a b) (fdistance f p q) = false.
Proof.
  intros f lo hi points RG FN AP L. destruct (closest f lo hi points RG FN AP L) as (p & q & E & T & M). exists p, q. split; [exact E|]. split; [exact T|].
  destruct (two_in_In _ _ _ T) as [P Q]. intros a b l1 l2 l3 El.
  assert (A : In a points) by (rewrite El; repeat (rewrite in_app_iff; cbn); auto). assert (B : In b points) by (rewrite El; repeat (rewrite in_app_iff; cbn); auto).
  destruct (D_value f lo hi points RG FN AP a b A B) as [E1 _]. destruct (D_value f lo hi points RG FN AP p q P Q) as [E2 _].
  split; [eauto|]. rewrite E1, E2. apply nless_fin_false. exact (proj1 (pairs_two _ _) M a b l1 l2 l3 El).
Qed.
(** Its true distance is the smallest one up to the roundings: 6 units in the last place of the square. *)
Theorem C138_near : forall f lo hi points, range f lo hi -> Forall finite points -> apart lo hi points -> (2 <= length points)%nat ->
  exists p q, fnearest_pair f points = Ok (p, q) /\ two_in points p q /\
    forall a b l1 l2 l3, points = l1 ++ a :: l2 ++ b :: l3 ->
      (real_dist2 p q * sixth (1 - 2 ^ (- prec f)) <= real_dist2 a b * sixth (1 + 2 ^ (- prec f)))%Q.
Proof.
  intros f lo hi points RG FN AP L. destruct (closest f lo hi points RG FN AP L) as (p & q & E & T & M). exists p, q. split; [exact E|]. split; [exact T|].
  destruct (two_in_In _ _ _ T) as [P Q]. intros a b l1 l2 l3 El.
  apply (near_order f lo hi points RG FN AP); auto; try (rewrite El; repeat (rewrite in_app_iff; cbn); auto).
  exact (proj1 (pairs_two _ _) M a b l1 l2 l3 El).
Qed.
(** On a grid it is the closest pair if some pair is close enough, however large the other distances are. *)
Theorem C138_exact : forall f e w pts, range f e (e + w) -> within_power w pts ->
  (exists a b, two_of pts a b /\ 16 * (dist2 a b + 1) <= 2 ^ prec f) ->
  exists p q, fnearest_pair f (map (grid e) pts) = Ok (grid e p, grid e q) /\ two_of pts p q /\
    forall a b l1 l2 l3, pts = l1 ++ a :: l2 ++ b :: l3 -> dist2 p q <= dist2 a b.
Proof.
  intros f e w pts RG WP (a0 & b0 & T0 & C0). pose proof (apart_grid e w pts WP) as AP.
  assert (FN : Forall finite (map (grid e) pts)) by (apply Forall_forall; intros p P; apply in_map_iff in P as (a & <- & _); apply finite_grid).
  assert (L : (2 <= length (map (grid e) pts))%nat) by (rewrite map_length; destruct T0 as [r Pr]; rewrite <- (Permutation_length Pr); cbn; lia).
  destruct (closest f e (e + w) _ RG FN AP L) as (p' & q' & E & [rest T] & M).
  apply Permutation_map_inv in T as (l' & El & Pl). destruct l' as [|p [|q l']]; try discriminate. cbn in El. injection El as -> -> ->.
  exists p, q. split; [exact E|]. split; [exists l'; now symmetry|].
  assert (P : In p pts) by (rewrite Pl; now left). assert (Q : In q pts) by (rewrite Pl; right; now left).
  assert (G : forall a b, two_of pts a b -> 16 * (dist2 a b + 1) <= 2 ^ prec f -> dist2 p q <= dist2 a b).
  { intros a b [r Pr] C. assert (A : In a pts) by (rewrite <- Pr; now left). assert (B : In b pts) by (rewrite <- Pr; right; now left).
    assert (O : (fdist f (grid e p) (grid e q) <= fdist f (grid e a) (grid e b))%Q).
    { assert (M' : ForallOrdPairs (fun x y => In x (map (grid e) pts) /\ In y (map (grid e) pts) /\ (fdist f (grid e p) (grid e q) <= fdist f x y)%Q) (map (grid e) (a :: b :: r))).
      { eapply pairs_perm; [|apply Permutation_map; symmetry; exact Pr|].
        - cbn. intros x y (Ix & Iy & H). split; [exact Iy|]. split; [exact Ix|]. rewrite <- (D_sym f e (e + w) _ RG FN AP x y Ix Iy). exact H.
        - apply pairs_two. intros x y l1 l2 l3 El. split; [rewrite El; repeat (rewrite in_app_iff; cbn); auto|]. split; [rewrite El; repeat (rewrite in_app_iff; cbn); auto|].
          exact (proj1 (pairs_two _ _) M x y l1 l2 l3 El). }
      cbn in M'. inversion M' as [|? ? F _]; subst. inversion F as [|? ? (_ & _ & H) _]; subst. exact H. }
    pose proof (near_order f e (e + w) _ RG FN AP (grid e a) (grid e b) (grid e p) (grid e q)
      (in_map _ _ _ A) (in_map _ _ _ B) (in_map _ _ _ P) (in_map _ _ _ Q) O) as H.
    rewrite !real_grid in H. set (u := (2 ^ (- prec f))%Q) in *. set (s := (2 ^ e * 2 ^ e)%Q) in *.
    assert (S : (0 < s)%Q) by (unfold s; pose proof (two_pos e); nra).
    assert (H' : (inject_Z (dist2 p q) * sixth (1 - u) <= inject_Z (dist2 a b) * sixth (1 + u))%Q).
    { apply (Qmult_le_r _ _ s S). setoid_replace (inject_Z (dist2 p q) * sixth (1 - u) * s)%Q with (inject_Z (dist2 p q) * s * sixth (1 - u))%Q by ring.
      setoid_replace (inject_Z (dist2 a b) * sixth (1 + u) * s)%Q with (inject_Z (dist2 a b) * s * sixth (1 + u))%Q by ring. exact H. }
    destruct (Z_le_gt_dec (dist2 p q) (dist2 a b)) as [K|K]; [exact K|exfalso].
    destruct (u_range f e (e + w) RG) as [U0 U1]. fold u in U0, U1.
    apply (sixth_ratio u (inject_Z (dist2 p q)) (inject_Z (dist2 a b))); auto.
    - change 0%Q with (inject_Z 0). rewrite <- Zle_Qle. unfold dist2. pose proof (Z.square_nonneg (px a - px b)). pose proof (Z.square_nonneg (py a - py b)). lia.
    - apply Qle_trans with (inject_Z (2 ^ prec f) * u)%Q.
      + apply Qmult_le_compat_r; [|lra]. change 16%Q with (inject_Z 16). change 1%Q with (inject_Z 1). rewrite <- inject_Z_plus, <- inject_Z_mult, <- Zle_Qle. exact C.
      + rewrite two_Z by (destruct RG; lia). unfold u. rewrite <- two_plus. replace (prec f + - prec f) with 0 by lia. apply Qle_refl.
    - change 1%Q with (inject_Z 1). rewrite <- inject_Z_plus, <- Zle_Qle. lia. }
  intros a b l1 l2 l3 El. assert (T : two_of pts a b).
  { exists (l1 ++ l2 ++ l3). rewrite El. rewrite <- (Permutation_middle l1 (l2 ++ b :: l3) a). constructor. rewrite !app_assoc. apply Permutation_middle. }
  pose proof (G a0 b0 T0 C0) as G0. destruct (Z_le_gt_dec (dist2 p q) (dist2 a b)) as [K|K]; [exact K|]. apply G; [exact T|]. lia.
Qed.

(** ** The largest distance *)
(** Two vertices that are farthest from each other are among the antipodal ones. *)
Lemma farthest_listed poly : convex poly -> exists r, antipodal_vertices poly = Ok r /\ (forall x y, In (x, y) r -> (x < length poly)%nat /\ (y < length poly)%nat) /\
  exists i j, In (i, j) r /\ forall v w, In v poly -> In w poly -> dist2 v w <= dist2 (vertex poly i) (vertex poly j).
Proof.
  intros C. destruct (antipodal_spec poly C) as (r & E & R1 & _ & _). destruct (max_distance_spec poly C) as (D & ED & _ & M). exists r. split; [exact E|].
  split; [intros x y I; apply R1 in I; cbn in I; lia|]. unfold max_distance in ED. rewrite E in ED. cbn [bind] in ED. injection ED as ED.
  set (g := fun ij : nat * nat => dist2 (vertex poly (fst ij)) (vertex poly (snd ij))) in *.
  change (fold_left (fun res ij => Z.max res (g ij)) r 0 = D) in ED.
  destruct (fold_max_in g r 0) as [Q|([i j] & I & Q)].
  - exfalso. rewrite ED in Q. pose proof C as [L _].
    assert (N01 : vertex poly 0 <> vertex poly 1).
    { pose proof (n_pos poly C). rewrite !vertex_V by lia. apply (V_neq poly C (Z.of_nat 0) 1). lia. }
    assert (K : dist2 (vertex poly 0) (vertex poly 1) <= D) by (apply M; unfold vertex; apply nth_In; lia).
    apply N01. revert K. rewrite Q. unfold dist2. destruct (vertex poly 0) as [x y], (vertex poly 1) as [x' y']. cbn [px py]. intros K.
    pose proof (Z.square_nonneg (x - x')). pose proof (Z.square_nonneg (y - y')).
    assert (Z1 : (x - x') * (x - x') = 0) by lia. assert (Z2 : (y - y') * (y - y') = 0) by lia.
    apply Z.mul_eq_0 in Z1. apply Z.mul_eq_0 in Z2. f_equal; lia.
  - exists i, j. split; [exact I|]. intros v w V W. specialize (M v w V W). rewrite ED in Q. unfold g in Q. cbn [fst snd] in Q. lia.
Qed.
Lemma fmax_fold f poly r : (forall i j, In (i, j) r -> fdistance f (fvertex poly i) (fvertex poly j) = Fin (fdist f (fvertex poly i) (fvertex poly j))) ->
  forall res, exists d, fold_left (fmax_step f poly) r (Fin res) = Fin d /\ (res <= d)%Q
    /\ (forall i j, In (i, j) r -> (fdist f (fvertex poly i) (fvertex poly j) <= d)%Q)
    /\ (d = res \/ exists i j, In (i, j) r /\ Fin d = fdistance f (fvertex poly i) (fvertex poly j)).
Proof.
  induction r as [|[i j] r IH]; intros V res; cbn [fold_left].
  - exists res. split; [reflexivity|]. split; [lra|]. split; [intros ? ? []|now left].
  - unfold fmax_step at 2. cbn [fst snd]. rewrite (V i j) by now left.
    assert (V' : forall i j, In (i, j) r -> fdistance f (fvertex poly i) (fvertex poly j) = Fin (fdist f (fvertex poly i) (fvertex poly j))) by (intros; apply V; now right).
    destruct (nless (Fin res) (Fin (fdist f (fvertex poly i) (fvertex poly j)))) eqn:N.
    + apply nless_fin in N. destruct (IH V' (fdist f (fvertex poly i) (fvertex poly j))) as (d & E & L & M & K). exists d. split; [exact E|].
      split; [lra|]. split; [intros i' j' [Q|I]; [injection Q as <- <-; exact L|now apply M]|].
      right. destruct K as [->|(i' & j' & I & K)]; [exists i, j; split; [now left|symmetry; apply V; now left]|exists i', j'; split; [now right|exact K]].
    + apply nless_fin_false in N. destruct (IH V' res) as (d & E & L & M & K). exists d. split; [exact E|]. split; [exact L|].
      split; [intros i' j' [Q|I]; [injection Q as <- <-; lra|now apply M]|].
      destruct K as [K|(i' & j' & I & K)]; [now left|right; exists i', j'; split; [now right|exact K]].
Qed.
Lemma fdistance_self f lo hi points p : range f lo hi -> Forall finite points -> apart lo hi points -> In p points -> fdistance f p p = Fin 0.
Proof.
  intros RG FN AP I. pose proof (proj1 (Forall_forall _ _) FN p I) as [Xp Yp]. destruct (D_value f lo hi points RG FN AP p p I I) as [E V].
  unfold fdistance, fdot2, fpsub in *. rewrite Xp, Yp in *. cbn [fx fy] in *.
  destruct (fsub_gap f lo hi RG (X p) (X p)) as (a & EA & VA); [left; ring|]. destruct (fsub_gap f lo hi RG (Y p) (Y p)) as (b & EB & VB); [left; ring|].
  rewrite EA, EB in *.
  assert (Z0 : forall c z, (c == round f (z - z))%Q -> (c * c == 0)%Q).
  { intros c z ->. rewrite (R_zero f (z - z)) by ring. ring. }
  assert (TZ : forall q, (q == 0)%Q -> exists r, to_num f q = Fin r /\ (r == 0)%Q).
  { intros q Q. destruct (fin_round f lo hi RG q) as (r & ER & VR); [rewrite Q; change (Qabs 0) with 0%Q; pose proof (two_pos (emax f - 1)); lra|].
    exists r. split; [exact ER|]. rewrite VR. now apply (R_zero f). }
  cbn [fmul]. destruct (TZ (a * a)%Q (Z0 _ _ VA)) as (r1 & -> & R1). destruct (TZ (b * b)%Q (Z0 _ _ VB)) as (r2 & -> & R2). cbn [fadd].
  destruct (TZ (0 + r1)%Q ltac:(lra)) as (r3 & -> & R3). cbn [fadd]. destruct (TZ (r3 + r2)%Q ltac:(lra)) as (r4 & -> & R4). cbn [fsqrt].
  destruct (Qcompare_spec r4 0); [reflexivity|lra|lra].
Qed.
Section Largest.
  Context (f : format) (e w : Z) (poly : list pt).
  Hypothesis RG : range f e (e + w).
  Hypothesis FE : fine f e.
  Hypothesis CP : convex poly.
  Hypothesis FT : fit f poly.
  Hypothesis WP : within_power w poly.
  Lemma fn_grid : Forall finite (map (grid e) poly).
  Proof. apply Forall_forall. intros p P. apply in_map_iff in P as (a & <- & _). apply finite_grid. Qed.
  Lemma largest : exists v u a b, In v poly /\ In u poly /\ In a poly /\ In b poly /\
    fmax_distance f (map (grid e) poly) = Ok (fdistance f (grid e v) (grid e u)) /\
    (forall c d, In c poly -> In d poly -> dist2 c d <= dist2 a b) /\ (fdist f (grid e a) (grid e b) <= fdist f (grid e v) (grid e u))%Q.
  Proof.
    destruct (farthest_listed poly CP) as (r & E & R1 & i & j & I & M). pose proof fn_grid as FN. pose proof (apart_grid e w poly WP) as AP.
    destruct FE as (Hp & E1 & E2 & M1 & M2). destruct FT as (x0 & y0 & W & H & B & HW & HH & HA).
    unfold fmax_distance. rewrite (fantipodal_grid f e Hp E1 E2 M1 M2 x0 y0 W H HW HH poly HA B), E. cbn [bind].
    assert (VI : forall k, (k < length poly)%nat -> In (vertex poly k) poly) by (intros k K; unfold vertex; now apply nth_In).
    assert (FV : forall k, (k < length poly)%nat -> fvertex (map (grid e) poly) k = grid e (vertex poly k)) by (intros k K; now apply fvertex_grid).
    destruct (fmax_fold f (map (grid e) poly) r) with (res := 0%Q) as (d & Ed & L & MX & K).
    { intros x y Ixy. apply R1 in Ixy as [Lx Ly]. rewrite !FV by assumption. apply (D_value f e (e + w) _ RG FN AP); apply in_map; now apply VI. }
    rewrite Ed. pose proof (R1 _ _ I) as [Li Lj]. specialize (MX i j I). rewrite !FV in MX by assumption.
    destruct K as [->|(x & y & Ixy & K)].
    - exists (vertex poly i), (vertex poly i), (vertex poly i), (vertex poly j). repeat split; auto.
      + now rewrite (fdistance_self f e (e + w) _ _ RG FN AP (in_map _ _ _ (VI i Li))).
      + unfold fdist at 2. rewrite (fdistance_self f e (e + w) _ _ RG FN AP (in_map _ _ _ (VI i Li))). exact MX.
    - pose proof (R1 _ _ Ixy) as [Lx Ly]. rewrite !FV in K by assumption.
      exists (vertex poly x), (vertex poly y), (vertex poly i), (vertex poly j). repeat split; auto.
      + now rewrite K.
      + unfold fdist at 2. rewrite <- K. exact MX.
  Qed.
  Lemma exact_value p q : In p poly -> In q poly -> dist2 p q <= 2 ^ prec f ->
    (fdist f (grid e p) (grid e q) == root f (inject_Z (dist2 p q) * (2 ^ e * 2 ^ e)))%Q.
  Proof.
    intros P Q B. pose proof fn_grid as FN. pose proof (apart_grid e w poly WP) as AP. destruct FE as (Hp & E1 & E2 & M1 & M2).
    rewrite (proj2 (D_value f e (e + w) _ RG FN AP (grid e p) (grid e q) (in_map _ _ _ P) (in_map _ _ _ Q))).
    apply (root_eq f e (e + w) RG). rewrite !X_grid, !Y_grid.
    assert (REP : forall k c, Z.abs k <= 2 ^ prec f -> emin f <= c -> (round f (inject_Z k * 2 ^ c) == inject_Z k * 2 ^ c)%Q).
    { intros k c K C. apply round_exact; [exact Hp|]. now apply representable_int. }
    assert (P0 : 0 < 2 ^ prec f) by (apply Z.pow_pos_nonneg; lia).
    unfold dist2 in *. set (dx := px p - px q) in *. set (dy := py p - py q) in *.
    assert (SX : dx * dx <= 2 ^ prec f /\ dy * dy <= 2 ^ prec f) by (pose proof (Z.square_nonneg dx); pose proof (Z.square_nonneg dy); lia).
    assert (SM : forall k, k * k <= 2 ^ prec f -> Z.abs k <= 2 ^ prec f).
    { intros k K. pose proof (Z.abs_nonneg k). destruct (Z.eq_dec k 0) as [->|N]; [cbn; lia|]. rewrite <- (Z.abs_square k) in K. nia. }
    assert (SQ : forall k d, k * k <= 2 ^ prec f -> (d == inject_Z k * 2 ^ e)%Q -> (sq f d == inject_Z (k * k) * (2 ^ e * 2 ^ e))%Q).
    { intros k d K ED. unfold sq. pose proof (round_eq f Hp _ _ ED) as RD. rewrite (REP k e (SM k K) E1) in RD.
      rewrite (round_eq f Hp _ (inject_Z (k * k) * 2 ^ (e + e))%Q).
      - rewrite REP; [rewrite two_plus; reflexivity|rewrite Z.abs_eq by apply Z.square_nonneg; exact K|exact E2].
      - rewrite RD, inject_Z_mult, two_plus. ring. }
    unfold ssum. rewrite (round_eq f Hp _ (inject_Z (dx * dx + dy * dy) * 2 ^ (e + e))%Q).
    - rewrite REP; [rewrite two_plus; reflexivity|rewrite Z.abs_eq by (pose proof (Z.square_nonneg dx); pose proof (Z.square_nonneg dy); lia); exact B|exact E2].
    - rewrite (SQ dx _ (proj1 SX) (grid_sub _ _ _)), (SQ dy _ (proj2 SX) (grid_sub _ _ _)), inject_Z_plus, two_plus. ring.
  Qed.
End Largest.
(** The result is the computed distance of two vertices; no two vertices are farther away but for the roundings. *)
Theorem C138_max_distance : forall f e w poly, range f e (e + w) -> fine f e -> convex poly -> fit f poly -> within_power w poly ->
  exists u v, In u poly /\ In v poly /\ fmax_distance f (map (grid e) poly) = Ok (fdistance f (grid e u) (grid e v)) /\
    (exists d, fdistance f (grid e u) (grid e v) = Fin d) /\
    forall a b, In a poly -> In b poly ->
      (inject_Z (dist2 a b) * sixth (1 - 2 ^ (- prec f)) <= inject_Z (dist2 u v) * sixth (1 + 2 ^ (- prec f)))%Q.
Proof.
  intros f e w poly RG FE CP FT WP. destruct (largest f e w poly RG FE CP FT WP) as (v & u & a & b & V & U & A & B & E & M & L).
  pose proof (fn_grid e poly) as FN. pose proof (apart_grid e w poly WP) as AP.
  exists v, u. split; [exact V|]. split; [exact U|]. split; [exact E|].
  split; [eexists; apply (D_value f e (e + w) _ RG FN AP); now apply in_map|]. intros c d C D.
  pose proof (near_order f e (e + w) _ RG FN AP (grid e v) (grid e u) (grid e a) (grid e b)
      (in_map _ _ _ V) (in_map _ _ _ U) (in_map _ _ _ A) (in_map _ _ _ B) L) as H. rewrite !real_grid in H.
  specialize (M c d C D). rewrite Zle_Qle in M. destruct (u_range f e (e + w) RG) as [U0 U1]. set (u' := (2 ^ (- prec f))%Q) in *.
  set (s := (2 ^ e * 2 ^ e)%Q) in *. assert (S : (0 < s)%Q) by (unfold s; pose proof (two_pos e); nra).
  assert (K0 : (0 <= sixth (1 - u'))%Q) by (unfold sixth, cube; repeat apply Qmult_le_0_compat; lra).
  apply Qle_trans with (inject_Z (dist2 a b) * sixth (1 - u'))%Q; [now apply Qmult_le_compat_r|].
  apply (Qmult_le_r _ _ s S). setoid_replace (inject_Z (dist2 a b) * sixth (1 - u') * s)%Q with (inject_Z (dist2 a b) * s * sixth (1 - u'))%Q by ring.
  setoid_replace (inject_Z (dist2 v u) * sixth (1 + u') * s)%Q with (inject_Z (dist2 v u) * s * sixth (1 + u'))%Q by ring. exact H.
Qed.
(** Where squares of distances fit the mantissa no two vertices have a larger computed distance. *)
Theorem C138_max_distance_largest : forall f e w poly, range f e (e + w) -> fine f e -> convex poly -> fit f poly -> within_power w poly ->
  (forall a b, In a poly -> In b poly -> dist2 a b <= 2 ^ prec f) ->
  exists u v, In u poly /\ In v poly /\ fmax_distance f (map (grid e) poly) = Ok (fdistance f (grid e u) (grid e v)) /\
    forall a b, In a poly -> In b poly -> nless (fdistance f (grid e u) (grid e v)) (fdistance f (grid e a) (grid e b)) = false.
Proof.
  intros f e w poly RG FE CP FT WP SM. destruct (largest f e w poly RG FE CP FT WP) as (v & u & a & b & V & U & A & B & E & M & L).
  pose proof (fn_grid e poly) as FN. pose proof (apart_grid e w poly WP) as AP.
  exists v, u. split; [exact V|]. split; [exact U|]. split; [exact E|]. intros c d C D.
  rewrite (proj1 (D_value f e (e + w) _ RG FN AP (grid e v) (grid e u) (in_map _ _ _ V) (in_map _ _ _ U))).
  rewrite (proj1 (D_value f e (e + w) _ RG FN AP (grid e c) (grid e d) (in_map _ _ _ C) (in_map _ _ _ D))).
  apply nless_fin_false. apply Qle_trans with (fdist f (grid e a) (grid e b)); [|exact L].
  rewrite (exact_value f e w poly RG FE WP c d C D (SM c d C D)), (exact_value f e w poly RG FE WP a b A B (SM a b A B)).
  apply (root_mono f e (e + w) RG). apply Qmult_le_compat_r; [rewrite <- Zle_Qle; now apply M|]. pose proof (two_pos e). nra.
Qed.

(** ** Refutations *)
(** Squares of small differences underflow: the distances are 0 and the first pair is returned. *)
Theorem C138_small_refuted : exists points a b, Forall finite points /\ two_in points a b /\
  exists p q, fnearest_pair double points = Ok (p, q) /\ fdistance double p q = Fin 0 /\ (16 * real_dist2 a b == real_dist2 p q)%Q /\ (0 < real_dist2 a b)%Q.
Proof.
  set (g := fun x => grid (-600) (P x 0)). exists [g 0; g 4; g 5], (g 4), (g 5).
  split; [repeat constructor|]. split; [exists [g 0]; symmetry; apply (Permutation_middle [g 4; g 5] [] (g 0))|].
  exists (g 0), (g 4). split; [vm_compute; reflexivity|]. split; [vm_compute; reflexivity|]. split; vm_compute; reflexivity.
Qed.
(** Squares of large differences overflow: the distances are infinite. *)
Theorem C138_large_refuted : exists points a b, Forall finite points /\ two_in points a b /\
  exists p q, fnearest_pair double points = Ok (p, q) /\ fdistance double p q = Inf false /\ fdistance double a b = Inf false /\ (16 * real_dist2 a b == real_dist2 p q)%Q /\ (0 < real_dist2 a b)%Q.
Proof.
  set (g := fun x => grid 600 (P x 0)). exists [g 0; g 4; g 5], (g 4), (g 5).
  split; [repeat constructor|]. split; [exists [g 0]; symmetry; apply (Permutation_middle [g 4; g 5] [] (g 0))|].
  exists (g 0), (g 4). split; [vm_compute; reflexivity|]. split; [vm_compute; reflexivity|]. split; [vm_compute; reflexivity|]. split; vm_compute; reflexivity.
Qed.
(** Even integers of type double: squares of distances that need more than 53 bits are rounded, another pair is closer. *)
Theorem C138_rounded_refuted : exists pts p q a b, two_of pts a b /\ within_power 28 pts /\
  fnearest_pair double (map (grid 0) pts) = Ok (grid 0 p, grid 0 q) /\ dist2 a b < dist2 p q.
Proof.
  exists [P 0 0; P (2 ^ 27) 1; P (2 ^ 28) 1], (P 0 0), (P (2 ^ 27) 1), (P (2 ^ 27) 1), (P (2 ^ 28) 1).
  split; [exists [P 0 0]; symmetry; apply (Permutation_middle [P (2 ^ 27) 1; P (2 ^ 28) 1] [] (P 0 0))|].
  split; [|split; [vm_compute; reflexivity|vm_compute; reflexivity]].
  split; [lia|]. intros p q. cbn [In]. intros [<-|[<-|[<-|[]]]] [<-|[<-|[<-|[]]]]; cbn [px py]; lia.
Qed.
(** The largest distance overflows as well. *)
Theorem C138_max_refuted : exists poly, convex poly /\ fmax_distance double (map (grid 600) poly) = Ok (Inf false).
Proof. exists PropPoly.pentagon. split; [apply PropPoly.pentagon_convex|vm_compute; reflexivity]. Qed.

(** ** Cases *)
(** Differences between 2^-510 and 2^511 for double, 2^-62 and 2^63 for float. *)
Example C138_case_range : range double (-510) 511 /\ range single (-62) 63 /\ range double 0 (0 + 511) /\ fine double 0.
Proof. unfold range, fine. cbn [prec emin emax double single]. lia. Qed.
Example C138_case_sqrt : fsqrt double (Fin 2) = Fin (6369051672525773 # 4503599627370496) /\ fsqrt double (Fin 25) = Fin 5.
Proof. split; vm_compute; reflexivity. Qed.
(** Infinite numbers and nan. *)
Example C138_case_special : fsqrt double (Inf false) = Inf false /\ fsqrt double (Inf true) = NaN /\ fsqrt double NaN = NaN /\ fsqrt double (Fin (-1)) = NaN /\
  nabs (Inf true) = Inf false /\ nabs (Inf false) = Inf false /\ nabs NaN = NaN.
Proof. repeat split. Qed.
(** Seven points with coordinates of different sizes. *)
Definition seven : list fpt :=
  [FP (Fin (1 # 8)) (Fin 3); FP (Fin 1000) (Fin (1 # 2)); FP (Fin (-7)) (Fin 5); FP (Fin (9 # 4)) (Fin (-4)); FP (Fin (1001)) (Fin 1); FP (Fin 512) (Fin 77); FP (Fin 0) (Fin (25 # 8))].
Lemma gap_case d : (d == 0)%Q \/ ((1 # 8 <= Qabs d)%Q /\ (Qabs d <= 1024)%Q) -> gap (-510) 511 d.
Proof.
  intros [E|[A B]]; [now left|right]. split.
  - apply Qle_trans with (1 # 8); [|exact A]. change (1 # 8) with (2 ^ (-3))%Q. apply two_le. lia.
  - apply Qle_trans with 1024%Q; [exact B|]. change 1024%Q with (2 ^ 10)%Q. apply two_le. lia.
Qed.
Example C138_case_nearest : Forall finite seven /\ apart (-510) 511 seven /\
  fnearest_pair double seven = Ok (FP (Fin 0) (Fin (25 # 8)), FP (Fin (1 # 8)) (Fin 3)).
Proof.
  split; [repeat constructor|]. split; [|vm_compute; reflexivity].
  assert (C : forallb (fun p => forallb (fun q => let ok := fun d => Qeq_bool d 0 || (Qle_bool (1 # 8) (Qabs d) && Qle_bool (Qabs d) 1024) in
     ok (X p - X q)%Q && ok (Y p - Y q)%Q) seven) seven = true) by (vm_compute; reflexivity).
  rewrite forallb_forall in C. intros p q P Q. specialize (C p P). rewrite forallb_forall in C. specialize (C q Q). cbn zeta in C. apply andb_true_iff in C as [C1 C2].
  assert (G : forall d, (Qeq_bool d 0 || (Qle_bool (1 # 8) (Qabs d) && Qle_bool (Qabs d) 1024) = true) -> gap (-510) 511 d).
  { intros d H. apply gap_case. apply orb_true_iff in H as [H|H]; [left; now apply Qeq_bool_iff|right]. apply andb_true_iff in H as [H1 H2].
    split; now apply Qle_bool_iff. }
  split; now apply G.
Qed.
(** Integers far away from each other with one close pair. *)
Definition sparse : list pt := [P 0 0; P (2 ^ 200) 5; P (2 ^ 200) (2 ^ 300); P (2 ^ 200 + 2 ^ 100) (2 ^ 300 + 3); P (2 ^ 300) 7; P 3 1; P (2 ^ 299) 0].
Example C138_case_exact : within_power 511 sparse /\ two_of sparse (P 0 0) (P 3 1) /\ 16 * (dist2 (P 0 0) (P 3 1) + 1) <= 2 ^ prec double /\
  fnearest_pair double (map (grid 0) sparse) = Ok (grid 0 (P 0 0), grid 0 (P 3 1)).
Proof.
  split; [|split; [|split; [cbn; lia|vm_compute; reflexivity]]].
  - assert (C : forallb (fun p => forallb (fun q => (Z.abs (px p - px q) <=? 2 ^ 511) && (Z.abs (py p - py q) <=? 2 ^ 511)) sparse) sparse = true) by (vm_compute; reflexivity).
    split; [lia|]. rewrite forallb_forall in C. intros p q I J. specialize (C p I). rewrite forallb_forall in C. specialize (C q J).
    apply andb_true_iff in C as [C1 C2]. split; now apply Z.leb_le.
  - unfold sparse. eexists. apply perm_skip. apply (Permutation_middle [_; _; _; _] [_] (P 3 1)).
Qed.
Example C138_case_max : convex PropPoly.pentagon /\ fit double PropPoly.pentagon /\ within_power 511 PropPoly.pentagon /\
  (forall a b, In a PropPoly.pentagon -> In b PropPoly.pentagon -> dist2 a b <= 2 ^ prec double) /\
  fmax_distance double (map (grid 0) PropPoly.pentagon) = Ok (fsqrt double (Fin 50)).
Proof.
  split; [apply PropPoly.pentagon_convex|]. split; [|split; [|split; [|vm_compute; reflexivity]]].
  - exists (-100), (-100), 200, 200. split; [|cbn; lia]. intros q I. cbn in I. repeat (destruct I as [<-|I]; [unfold in_box; cbn; lia|]). destruct I.
  - split; [lia|]. assert (C : forallb (fun p => forallb (fun q => (Z.abs (px p - px q) <=? 2 ^ 511) && (Z.abs (py p - py q) <=? 2 ^ 511)) PropPoly.pentagon) PropPoly.pentagon = true) by (vm_compute; reflexivity).
    rewrite forallb_forall in C. intros p q I J. specialize (C p I). rewrite forallb_forall in C. specialize (C q J).
    apply andb_true_iff in C as [C1 C2]. split; now apply Z.leb_le.
  - assert (C : forallb (fun p => forallb (fun q => dist2 p q <=? 2 ^ prec double) PropPoly.pentagon) PropPoly.pentagon = true) by (vm_compute; reflexivity).
    rewrite forallb_forall in C. intros p q I J. specialize (C p I). rewrite forallb_forall in C. specialize (C q J). now apply Z.leb_le.
Qed.
Print Assumptions C138_sqrt.
Print Assumptions C138_nearest.
Print Assumptions C138_near.
Print Assumptions C138_exact.
Print Assumptions C138_max_distance.
Print Assumptions C138_max_distance_largest.
Print Assumptions C138_small_refuted.
Print Assumptions C138_large_refuted.
Print Assumptions C138_rounded_refuted.
Print Assumptions C138_max_refuted.
