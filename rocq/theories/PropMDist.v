(** C128: closest pair and largest distance over machine integers, with distances of type double. *)
From Coq Require Import ZArith List Bool Lia Permutation.
From Verif Require Import Outcome IntTypes GeoModel HullProofs PolyModel WindProofs NearestProofs ExtremeModel ExtremeProofs MGeoModel MGeoProofs MDistModel MDistProofs.
From Verif Require PropPoly PropExtreme.
Import ListNotations.
Local Open Scope Z_scope.

(** ** Specification *)
Definition square_dist (p q : pt) : Z := (px p - px q) ^ 2 + (py p - py q) ^ 2.
(** The points are in a box, the square of whose diagonal is at most [D] and fits into the type of products. *)
Definition boxed (t : ity) (D : Z) (points : list pt) : Prop :=
  exists x0 y0 W H, (forall q, In q points -> x0 <= px q <= x0 + W /\ y0 <= py q <= y0 + H) /\
    W * W + H * H <= D /\ W * W + H * H < ihigh (promote t).
(** [r], in units of 2^-52, has 53 bits from the bit [h] on, and differs from the root of [D] by at
    most half of the unit of the last bit. *)
Definition nearest_root (D r : Z) : Prop :=
  exists m h, 0 <= h /\ r = m * 2 ^ h /\ 2 ^ 52 <= m <= 2 ^ 53 /\
    (2 * m - 1) ^ 2 * 4 ^ h <= 4 * (D * 4 ^ 52) <= (2 * m + 1) ^ 2 * 4 ^ h.

Lemma square_dist2 p q : square_dist p q = dist2 p q.
Proof. unfold square_dist, dist2. ring. Qed.

(** ** C128 *)
Theorem C128_nearest : forall t points, IntTypes.sgn t = true -> boxed t (2 ^ 52 - 1) points -> (2 <= length points)%nat ->
  exists p q rest, mnearest_pair t points = Ok (p, q) /\ Permutation (p :: q :: rest) points /\
    forall a b l1 l2 l3, points = l1 ++ a :: l2 ++ b :: l3 -> square_dist p q <= square_dist a b.
Proof.
  intros t points HS (x0 & y0 & W & H & B & D & T) L.
  destruct (PropPoly.C92_nearest points L) as (p & q & rest & E & R & M). exists p, q, rest.
  rewrite (pair_ok t x0 y0 W H HS) by (try (unfold top; lia); apply Forall_forall; exact B).
  split; [exact E|]. split; [exact R|]. intros. rewrite !square_dist2. eapply M. eassumption.
Qed.

Theorem C128_max_distance : forall t poly, IntTypes.sgn t = true -> boxed t (2 ^ 53 - 1) poly -> convex poly ->
  exists r v w, mmax_distance t poly = Ok r /\ In v poly /\ In w poly /\ nearest_root (square_dist v w) r /\
    forall v' w', In v' poly -> In w' poly -> square_dist v' w' <= square_dist v w.
Proof.
  intros t poly HS (x0 & y0 & W & H & B & D & T) C.
  assert (F : Forall (in_box x0 y0 W H) poly) by (apply Forall_forall; exact B).
  assert (WH : 0 <= W /\ 0 <= H) by (pose proof (B (cyc poly 0) (V_in poly C 0)); lia).
  assert (S : W <= W * W /\ H <= H * H /\ W * H <= W * W + H * H) by nia.
  destruct (antipodal_spec poly C) as (pairs & E & I & _).
  destruct (max_distance_spec poly C) as (M & EM & (v & w & Iv & Iw & EV) & MM).
  unfold max_distance in EM. rewrite E in EM. cbn [bind] in EM. injection EM as EM.
  exists (dsqrt M), v, w. unfold mmax_distance.
  rewrite (antipodal_vertices_ok t x0 y0 W H poly C F HS) by (unfold top; lia). rewrite E. cbn [bind].
  rewrite <- dsqrt_0 at 1.
  rewrite (max_loop_ok t x0 y0 W H poly F HS); [|unfold top; lia|lia| |lia].
  2:{ intros i j J. apply I in J. lia. }
  rewrite EM. split; [reflexivity|]. split; [exact Iv|]. split; [exact Iw|]. rewrite !square_dist2, <- EV. split.
  2:{ intros v' w' V' W'. rewrite square_dist2. now apply MM. }
  assert (P : 0 < M < 2 ^ 106).
  { split.
    - assert (N01 : cyc poly 0 <> cyc poly 1) by (apply (V_neq poly C 0 1); pose proof (n_pos poly C); lia).
      pose proof (MM _ _ (V_in poly C 0) (V_in poly C 1)) as K.
      enough (0 < dist2 (cyc poly 0) (cyc poly 1)) by lia. unfold dist2.
      destruct (cyc poly 0) as [x y], (cyc poly 1) as [x' y']. cbn [px py].
      assert (Q : forall a, a <> 0 -> 0 < a * a) by (intros; nia).
      pose proof (Z.square_nonneg (x - x')). pose proof (Z.square_nonneg (y - y')).
      destruct (Z.eq_dec x x') as [EX|NX]; [destruct (Z.eq_dec y y') as [EY|NY]; [congruence|]|].
      + pose proof (Q (y - y') ltac:(lia)). lia.
      + pose proof (Q (x - x') ltac:(lia)). lia.
    - pose proof (dist2_le x0 y0 W H v w (B v Iv) (B w Iw)). assert (2 ^ 53 < 2 ^ 106) by (apply Z.pow_lt_mono_r; lia). lia. }
  destruct (sqrt_spec M P) as (h & m & Rh & _ & -> & Rm & X1 & X2). exists m, h. split; [lia|]. split; [reflexivity|]. split; [exact Rm|].
  assert (E4 : 4 ^ 52 = 4 ^ (52 - h) * 4 ^ h) by (rewrite <- Z.pow_add_r by lia; f_equal; lia).
  rewrite E4. set (c := 4 ^ h). set (d := 4 ^ (52 - h)) in *. assert (PC : 0 < c) by (apply Z.pow_pos_nonneg; lia).
  replace (4 * (M * (d * c))) with (4 * (M * d) * c) by ring. rewrite !Z.pow_2_r.
  split; apply Z.mul_le_mono_nonneg_r; nia.
Qed.

(** The pairs of vertices need less: the area of the box has to fit. *)
Theorem C128_antipodal : forall t poly x0 y0 W H, IntTypes.sgn t = true -> convex poly ->
  (forall q, In q poly -> x0 <= px q <= x0 + W /\ y0 <= py q <= y0 + H) ->
  W < ihigh (promote t) -> H < ihigh (promote t) -> W * H < ihigh (promote t) ->
  exists r, mantipodal_vertices t poly = Ok r
  /\ (forall x y, In (x, y) r -> (x < y < length poly)%nat)
  /\ (forall a b w, (a < b < length poly)%nat ->
        (forall v, In v poly -> v <> vertex poly a -> 0 < px w * (py v - py (vertex poly a)) - py w * (px v - px (vertex poly a))) ->
        (forall v, In v poly -> v <> vertex poly b -> px w * (py v - py (vertex poly b)) - py w * (px v - px (vertex poly b)) < 0) ->
        In (a, b) r).
Proof.
  intros t poly x0 y0 W H HS C B HW HH HA. destruct (PropExtreme.C93_antipodal poly C) as (r & E & R1 & _ & R2).
  exists r. rewrite (antipodal_vertices_ok t x0 y0 W H poly C) by (try (unfold top; lia); try exact HS; apply Forall_forall; exact B).
  auto.
Qed.

(** The bound is exact: if the square of the diagonal does not fit, its ends overflow. *)
Lemma distance_ub t W H p q : IntTypes.sgn t = true -> 0 <= W <= top t -> 0 <= H <= top t -> top t < W * W + H * H ->
  (p = P 0 0 /\ q = P W H) \/ (p = P W H /\ q = P 0 0) -> mdistance t p q = UB.
Proof.
  intros HS HW HH HA PQ. pose proof (sgn_promote t HS) as SP. unfold mdistance.
  assert (E : exists v, mpsub t p q = Ok v /\ px v * px v = W * W /\ py v * py v = H * H).
  { destruct PQ as [[-> ->]|[-> ->]]; (rewrite mpsub_ok; [eexists; split; [reflexivity|]; cbn [psub px py]; split; ring|exact SP| |]);
      cbn [px py]; lia. }
  destruct E as (v & -> & EX & EY). cbn [bind]. unfold mdot, mmul, madd. rewrite promote_idem, EX, EY.
  destruct (Z_lt_le_dec (top t) (W * W)) as [L|L]; [rewrite arith_ub by assumption; reflexivity|].
  rewrite arith_ok by (try exact SP; nia). cbn [bind]. rewrite Z.add_0_l, arith_ok by (try exact SP; nia). cbn [bind].
  destruct (Z_lt_le_dec (top t) (H * H)) as [L'|L']; [rewrite arith_ub by assumption; reflexivity|].
  rewrite arith_ok by (try exact SP; nia). cbn [bind]. rewrite arith_ub by assumption. reflexivity.
Qed.
Theorem C128_tight : forall t W H, IntTypes.sgn t = true -> 0 <= W < ihigh t -> 0 <= H < ihigh t -> ihigh (promote t) <= W * W + H * H ->
  mnearest_pair t [P 0 0; P W H] = UB.
Proof.
  intros t W H HS HW HH HA. pose proof (high_promote t HS) as HP. pose proof (top_pos t) as TP.
  unfold mnearest_pair. cbn [length negb]. change (1 <? Z.of_nat 2) with true. cbn [negb].
  assert (N : P 0 0 <> P W H) by (intro E; injection E as <- <-; unfold top in TP; lia).
  pose proof (sort_perm pless [P 0 0; P W H]) as SP.
  assert (S : sort pless [P 0 0; P W H] = [P 0 0; P W H] \/ sort pless [P 0 0; P W H] = [P W H; P 0 0]).
  { symmetry in SP. apply Permutation_length_2_inv in SP. exact SP. }
  assert (Q : forall a b, a <> b -> peq a b = false).
  { intros [ax ay] [bx by_] NE. unfold peq. cbn [px py]. destruct (Z.eqb_spec ax bx), (Z.eqb_spec ay by_); cbn; congruence. }
  destruct S as [-> | ->]; cbn [adjacent_equal]; rewrite Q by congruence; cbn [length mnearest_rec Nat.leb];
    unfold mbrute; cbn [index_pairs map app fst snd]; rewrite (distance_ub t W H); try reflexivity; try exact HS; unfold top; auto; lia.
Qed.

(** Finding: from 2^52 on, roots of different squares are the same number, and the pair returned need not be
    the closest one, although nothing overflows. *)
Theorem C128_double_refuted : exists points p q a b,
  boxed int64 (2 ^ 53) points /\ mnearest_pair int64 points = Ok (p, q) /\ In a points /\ In b points /\ a <> b /\
  square_dist a b = 2 ^ 52 /\ square_dist p q = 2 ^ 52 + 1.
Proof.
  exists [P 0 0; P 1 (2 ^ 26); P (2 ^ 26) 0], (P 0 0), (P 1 (2 ^ 26)), (P 0 0), (P (2 ^ 26) 0).
  split. { exists 0, 0, (2 ^ 26), (2 ^ 26). split; [|split; [vm_compute; discriminate|vm_compute; reflexivity]].
    intros q [<-|[<-|[<-|[]]]]; cbn [px py]; lia. }
  split; [vm_compute; reflexivity|]. split; [now left|]. split; [right; right; now left|].
  split; [discriminate|]. split; reflexivity.
Qed.
(** Finding: over an unsigned type the distance to the line in the middle wraps, and the closest pair is missed. *)
Theorem C128_unsigned_refuted : exists points p q a b,
  (forall v, In v points -> 0 <= px v <= 100 /\ 0 <= py v <= 100) /\ mnearest_pair uint32 points = Ok (p, q) /\
  In a points /\ In b points /\ a <> b /\ square_dist a b < square_dist p q.
Proof.
  exists [P 0 0; P 10 50; P 11 50; P 30 0], (P 0 0), (P 10 50), (P 10 50), (P 11 50).
  split. { intros v [<-|[<-|[<-|[<-|[]]]]]; cbn [px py]; lia. }
  split; [vm_compute; reflexivity|]. split; [right; now left|]. split; [right; right; now left|]. split; [discriminate|reflexivity].
Qed.

Example C128_case : let pts := [P 0 0; P 10000 3; P 7 9000; P (-4) 5000; P 8000 4; P 20000 20000; P 3 3; P 1 7] in
  boxed int32 (2 ^ 52 - 1) pts /\ (2 <= length pts)%nat /\ mnearest_pair int32 pts = Ok (P 3 3, P 0 0).
Proof.
  cbv zeta. split. { exists (-4), 0, 20004, 20000. split; [|split; [vm_compute; discriminate|vm_compute; reflexivity]].
    intros q I. repeat (destruct I as [<-|I]; [cbn [px py]; lia|]). destruct I. }
  split; [cbn; lia|vm_compute; reflexivity].
Qed.
Example C128_case_max : convex PropPoly.pentagon /\ boxed int8 (2 ^ 53 - 1) PropPoly.pentagon /\
  mmax_distance int8 PropPoly.pentagon = Ok 31845258362628864.
Proof.
  split; [apply PropPoly.pentagon_convex|]. split; [|vm_compute; reflexivity].
  exists (-1000), (-1000), 2000, 2000. split; [|split; [vm_compute; discriminate|vm_compute; reflexivity]].
  intros q I. repeat (destruct I as [<-|I]; [cbn [px py]; lia|]). destruct I.
Qed.
Example C128_tight_case : 0 <= 40000 < ihigh int32 /\ ihigh (promote int32) <= 40000 * 40000 + 40000 * 40000.
Proof. vm_compute. repeat split; discriminate. Qed.
Print Assumptions C128_nearest.
Print Assumptions C128_max_distance.
Print Assumptions C128_antipodal.
Print Assumptions C128_tight.
Print Assumptions C128_double_refuted.
Print Assumptions C128_unsigned_refuted.
