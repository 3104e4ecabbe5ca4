(** C132: points of intersection and projections of type double for integer coordinates. *)
From Coq Require Import ZArith QArith Qabs Qcanon List Bool Lia.
From Verif Require Import Outcome IntTypes GeoModel MGeoModel MGeoProofs MCrossModel PropMCross FGeoModel FCrossModel FCrossProofs.
From Verif Require VecModel MDistProofs.
Import ListNotations.
Local Open Scope Z_scope.

(** ** Specification: a number of type double near a rational *)
(** [r] is finite and differs from [x] by at most 2^-50 (|a| + |x - a|), where [a] is the coordinate
    of the beginning of the line. *)
Definition near (r : num) (a : Z) (x : Qc) : Prop := exists q, r = Fin q /\
  (Qabs (q - this x) <= 2 ^ (-50) * (inject_Z (Z.abs a) + Qabs (this x - inject_Z a)))%Q.
Definition exactly (r : num) (x : Qc) : Prop := exists q, r = Fin q /\ (q == this x)%Q.
Definition between (r : num) (a b : Z) : Prop := exists q, r = Fin q /\
  (inject_Z (Z.min a b) <= q <= inject_Z (Z.max a b))%Q.

(** ** Helpers *)
Lemma this_qz z : (this (qz z) == inject_Z z)%Q. Proof. unfold qz, Q2Qc. cbn [this]. apply Qred_correct. Qed.
Lemma this_mul a b : (this (a * b)%Qc == this a * this b)%Q. Proof. unfold Qcmult, Q2Qc. cbn [this]. apply Qred_correct. Qed.
Lemma this_add a b : (this (a + b)%Qc == this a + this b)%Q. Proof. unfold Qcplus, Q2Qc. cbn [this]. apply Qred_correct. Qed.
Lemma this_sub a b : (this (a - b)%Qc == this a - this b)%Q.
Proof. unfold Qcminus, Qcopp, Qcplus, Q2Qc. cbn [this]. rewrite !Qred_correct. reflexivity. Qed.
Lemma scalar_div s n d : d <> 0 -> (s * qz d)%Qc = qz n -> (this s == inject_Z n / inject_Z d)%Q.
Proof.
  intros N E. assert (NZ : ~ (inject_Z d == 0)%Q) by (intro X; apply N; apply (proj1 (inject_Z_injective d 0)); exact X).
  rewrite <- (this_qz n), <- E, this_mul, this_qz. field. exact NZ.
Qed.
Lemma med_ity t z : bits t <= 64 -> in_ity (promote t) z -> med z.
Proof.
  intros B I. unfold med.
  assert (X : 2 ^ bits (promote t) <= 2 ^ 130 /\ 0 <= 2 ^ (bits (promote t) - 1) <= 2 ^ bits (promote t)).
  { unfold promote in *. destruct (bits t <? 32) eqn:E; [cbn; lia|]. apply Z.ltb_ge in E.
    split; [apply Z.pow_le_mono_r; lia|]. split; [apply Z.pow_nonneg; lia | apply Z.pow_le_mono_r; lia]. }
  unfold in_ity, ilow, ihigh in I. destruct (IntTypes.sgn (promote t)); lia.
Qed.
Lemma med_coord t z : 0 < bits t -> bits t <= 64 -> in_ity t z -> med z.
Proof.
  intros B0 B I. unfold med. assert (X : 2 ^ bits t <= 2 ^ 130 /\ 0 <= 2 ^ (bits t - 1) <= 2 ^ bits t).
  { split; [apply Z.pow_le_mono_r; lia|]. split; [apply Z.pow_nonneg; lia | apply Z.pow_le_mono_r; lia]. }
  unfold in_ity, ilow, ihigh in I. destruct (IntTypes.sgn t); lia.
Qed.
Lemma med_diff t u v : 0 < bits t -> bits t <= 64 -> in_ity t u -> in_ity t v -> med (v - u).
Proof.
  intros B0 B I J. unfold med. assert (X : 2 ^ bits t <= 2 ^ 64 /\ 0 <= 2 ^ (bits t - 1) <= 2 ^ bits t).
  { split; [apply Z.pow_le_mono_r; lia|]. split; [apply Z.pow_nonneg; lia | apply Z.pow_le_mono_r; lia]. }
  assert (4 * 2 ^ 64 <= 2 ^ 130) by discriminate.
  unfold in_ity, ilow, ihigh in *. destruct (IntTypes.sgn t); lia.
Qed.
Lemma at_value a v s n d (x : Qc) : (this s == inject_Z n / inject_Z d)%Q -> x = (qz a + s * (qz v - qz a))%Qc ->
  (this x == inject_Z a + inject_Z n / inject_Z d * inject_Z (v - a))%Q.
Proof.
  intros E ->. rewrite this_add, this_mul, this_sub, !this_qz, E. unfold Z.sub. rewrite inject_Z_plus, inject_Z_opp. reflexivity.
Qed.
Lemma near_coord n d a v x : med n -> med d -> d <> 0 -> med a -> med (v - a) ->
  (this x == inject_Z a + inject_Z n / inject_Z d * inject_Z (v - a))%Q ->
  near (fadd double (of_int a) (fmul double (mratio n d) (of_int (v - a)))) a x.
Proof.
  intros N D D0 A V E. destruct (coord_rel n d a (v - a) N D D0 A V) as (q & F & G). exists q. split; [exact F|].
  rewrite E. setoid_replace (inject_Z a + inject_Z n / inject_Z d * inject_Z (v - a) - inject_Z a)%Q with
    (inject_Z n / inject_Z d * inject_Z (v - a))%Q by ring. exact G.
Qed.

(** The numbers output by the scalar form *)
Lemma scalar_val t a b c d ka kb kc kd n dn : wide t [a; b; c; d] ->
  mintersect_scalar t (K (make_line a b) ka kb) (K (make_line c d) kc kd) = Ok (Some (n, dn)) ->
  n = area (psub a c) (psub d c) /\ dn = area (psub d c) (psub b a).
Proof.
  intros (Hb & HS & x0 & y0 & W & H & B & HW & HH & HA).
  pose proof (B a ltac:(cbn; auto)) as Ba. pose proof (B b ltac:(cbn; auto)) as Bb.
  pose proof (B c ltac:(cbn; auto)) as Bc. pose proof (B d ltac:(cbn; auto)) as Bd.
  pose proof (short_sub t x0 y0 W H d c Bd Bc) as S1. pose proof (short_sub t x0 y0 W H b a Bb Ba) as S2.
  pose proof (short_sub t x0 y0 W H a c Ba Bc) as S3.
  unfold mintersect_scalar. cbn [k_line make_line lbegin lvec].
  rewrite (proj1 (area_ok t W H HS HA _ _ S1 S2)). cbn [bind].
  destruct (area (psub d c) (psub b a) =? 0); [discriminate|].
  rewrite (sub_ok t x0 y0 W H HS HW HH) by assumption. cbn [bind].
  rewrite !(area_ok' t W H HS HA) by assumption. cbn [bind].
  destruct (mcross_test _ _ _ _ _ _) as [o| | | |]; try discriminate. cbn [bind]. destruct o; cbn [negb]; [|discriminate].
  intros E. injection E as <- <-. split; reflexivity.
Qed.

(** ** C132 *)
(** No step overflows. The point computed for lines that are not parallel is near their common point;
    the error is relative to the beginning of the first line and to its distance from the common point. *)
Theorem C132_accuracy : forall t a b c d ka kb kc kd, wide t [a; b; c; d] -> bits t <= 64 -> a <> b -> c <> d ->
  exists l r res, mmake_kline t a b ka kb = Ok l /\ mmake_kline t c d kc kd = Ok r /\ mintersect_point t l r = Ok res /\
    match res with
    | Some p => (px b - px a) * (py d - py c) <> (py b - py a) * (px d - px c) /\
        exists x y, lies_on a b ka kb x y /\ lies_on c d kc kd x y /\ near (fx p) (px a) x /\ near (fy p) (py a) y
    | None => (px b - px a) * (py d - py c) = (py b - py a) * (px d - px c)
        \/ ~ exists x y, lies_on a b ka kb x y /\ lies_on c d kc kd x y
    end.
Proof.
  intros t a b c d ka kb kc kd Wd B64 Nl Nr. pose proof Wd as (Hb & HS & x0 & y0 & W & H & B & HW & HH & HA).
  pose proof (B a ltac:(cbn; auto)) as Ba. pose proof (B b ltac:(cbn; auto)) as Bb.
  destruct (C127_scalar t a b c d ka kb kc kd Wd Nl Nr) as (l & r & res & El & Er & E & I).
  rewrite (make_ok t x0 y0 W H) in El by assumption. injection El as <-.
  exists (K (make_line a b) ka kb), r. eexists. split; [apply (make_ok t x0 y0 W H); assumption|]. split; [exact Er|].
  unfold mintersect_point. rewrite E. cbn [bind]. split; [reflexivity|].
  destruct res as [[n dn]|]; [|exact I]. destruct I as (D0 & I1 & I2 & Par & s & x & y & Es & J1 & J2 & (L1 & L2) & On).
  split; [exact Par|]. exists x, y. split; [exists s; split; [split; assumption | split; assumption]|]. split; [exact On|].
  pose proof (scalar_div s n dn D0 Es) as S. destruct Ba as (_ & A1 & A2), Bb as (_ & B1 & B2).
  pose proof (med_ity t n B64 I1). pose proof (med_ity t dn B64 I2).
  split; cbn [fline_at k_line make_line lbegin lvec psub px py fx fy]; apply near_coord; try assumption;
    eauto using med_coord, med_diff, at_value.
Qed.

(** Where the first line is a segment, with its ends or without, the computed point is in its
    bounding box. *)
Theorem C132_in_box : forall t a b c d ka kb kc kd, wide t [a; b; c; d] -> bits t <= 64 -> a <> b -> c <> d ->
  ka <> VecModel.Free -> kb <> VecModel.Free ->
  (forall q, In q [a; b] -> Z.abs (px q) <= 2 ^ 52 /\ Z.abs (py q) <= 2 ^ 52) ->
  exists l r res, mmake_kline t a b ka kb = Ok l /\ mmake_kline t c d kc kd = Ok r /\ mintersect_point t l r = Ok res /\
    forall p, res = Some p -> between (fx p) (px a) (px b) /\ between (fy p) (py a) (py b).
Proof.
  intros t a b c d ka kb kc kd Wd B64 Nl Nr Ka Kb Sm. pose proof Wd as (Hb & HS & x0 & y0 & W & H & B & HW & HH & HA).
  pose proof (B a ltac:(cbn; auto)) as Ba. pose proof (B b ltac:(cbn; auto)) as Bb.
  destruct (C127_scalar t a b c d ka kb kc kd Wd Nl Nr) as (l & r & res & El & Er & E & I).
  rewrite (make_ok t x0 y0 W H) in El by assumption. injection El as <-.
  exists (K (make_line a b) ka kb), r. eexists. split; [apply (make_ok t x0 y0 W H); assumption|]. split; [exact Er|].
  unfold mintersect_point. rewrite E. cbn [bind]. split; [reflexivity|].
  destruct res as [[n dn]|]; [|discriminate]. destruct I as (D0 & I1 & I2 & Par & s & x & y & Es & J1 & J2 & (L1 & L2) & On).
  intros p Ep. injection Ep as <-.
  pose proof (scalar_div s n dn D0 Es) as S.
  pose proof (med_ity t n B64 I1). pose proof (med_ity t dn B64 I2).
  assert (U01 : (0 <= inject_Z n / inject_Z dn <= 1)%Q).
  { rewrite <- S. split.
    - destruct ka; first [contradiction | exact J1 | exact (Qclt_le_weak _ _ J1)].
    - destruct kb; first [contradiction | exact J2 | exact (Qclt_le_weak _ _ J2)]. }
  pose proof (Sm a ltac:(cbn; auto)) as [A1 A2]. pose proof (Sm b ltac:(cbn; auto)) as [B1 B2].
  assert (T : 2 ^ 53 = 2 * 2 ^ 52) by reflexivity.
  split; cbn [fline_at k_line make_line lbegin lvec psub px py fx fy];
    (match goal with |- between (fadd _ (of_int ?a) (fmul _ _ (of_int (?b - ?a)))) _ _ =>
       destruct (coord_between n dn a (b - a)) as (q & Eq & G); try assumption; try (unfold small; lia);
       exists q; split; [exact Eq|]; now replace (a + (b - a)) with b in G by lia end).
Qed.

(** Lines that are not parallel have at most one common point. *)
Lemma common_unique a b c d s s' x y x' y' u u' : (px b - px a) * (py d - py c) <> (py b - py a) * (px d - px c) ->
  lies_at a b s x y -> lies_at a b s' x' y' -> lies_at c d u x y -> lies_at c d u' x' y' -> s = s'.
Proof.
  intros N (A1 & A2) (B1 & B2) (C1 & C2) (D1 & D2).
  set (vx := (qz (px b) - qz (px a))%Qc) in *. set (vy := (qz (py b) - qz (py a))%Qc) in *.
  set (wx := (qz (px d) - qz (px c))%Qc) in *. set (wy := (qz (py d) - qz (py c))%Qc) in *.
  assert (E1 : ((s - s') * vx = (u - u') * wx)%Qc).
  { transitivity (x - x')%Qc; [rewrite A1, B1; ring | rewrite C1, D1; ring]. }
  assert (E2 : ((s - s') * vy = (u - u') * wy)%Qc).
  { transitivity (y - y')%Qc; [rewrite A2, B2; ring | rewrite C2, D2; ring]. }
  assert (E : ((s - s') * (vx * wy - vy * wx) = 0)%Qc).
  { transitivity ((s - s') * vx * wy - (s - s') * vy * wx)%Qc; [ring|]. rewrite E1, E2. ring. }
  destruct (Qcmult_integral _ _ E) as [F|F].
  - transitivity (s - s' + s')%Qc; [ring | rewrite F; ring].
  - exfalso. apply N. unfold vx, vy, wx, wy in F. rewrite <- !qz_sub, <- !qz_mul, <- qz_sub in F. change 0%Qc with (qz 0) in F.
    apply qz_inj in F. lia.
Qed.

Lemma small_area p q r w : Z.abs (px p) <= 2 ^ 25 -> Z.abs (py p) <= 2 ^ 25 -> Z.abs (px q) <= 2 ^ 25 -> Z.abs (py q) <= 2 ^ 25 ->
  Z.abs (px r) <= 2 ^ 25 -> Z.abs (py r) <= 2 ^ 25 -> Z.abs (px w) <= 2 ^ 25 -> Z.abs (py w) <= 2 ^ 25 ->
  small (area (psub p q) (psub r w)).
Proof.
  intros P1 P2 Q1 Q2 R1 R2 W1 W2. unfold area, psub, small. cbn [px py].
  assert (T26 : 2 ^ 26 = 2 * 2 ^ 25) by reflexivity. assert (T53 : 2 ^ 53 = 2 * (2 ^ 26 * 2 ^ 26)) by reflexivity.
  pose proof (abs_mul_le (px p - px q) (py r - py w) (2 ^ 26) (2 ^ 26) ltac:(lia) ltac:(lia)) as X.
  pose proof (abs_mul_le (py p - py q) (px r - px w) (2 ^ 26) (2 ^ 26) ltac:(lia) ltac:(lia)) as Y.
  clear - X Y T53. lia.
Qed.

(** The point is exact where it divides the first line in a ratio with a small power of two. *)
Theorem C132_exact : forall t a b c d ka kb kc kd m k x y, wide t [a; b; c; d] -> a <> b -> c <> d ->
  (forall q, In q [a; b; c; d] -> Z.abs (px q) <= 2 ^ 25 /\ Z.abs (py q) <= 2 ^ 25) ->
  (px b - px a) * (py d - py c) <> (py b - py a) * (px d - px c) ->
  0 <= k <= 26 -> Z.abs m <= 2 ^ 26 -> on_begin ka (qz m / qz (2 ^ k))%Qc -> on_end kb (qz m / qz (2 ^ k))%Qc ->
  lies_at a b (qz m / qz (2 ^ k))%Qc x y -> lies_on c d kc kd x y ->
  exists l r p, mmake_kline t a b ka kb = Ok l /\ mmake_kline t c d kc kd = Ok r /\ mintersect_point t l r = Ok (Some p) /\
    exactly (fx p) x /\ exactly (fy p) y.
Proof.
  intros t a b c d ka kb kc kd m k x y Wd Nl Nr Sm Par Hk Hm Oa Ob At On.
  pose proof Wd as (Hb & HS & x0 & y0 & W & H & B & HW & HH & HA).
  pose proof (B a ltac:(cbn; auto)) as Ba. pose proof (B b ltac:(cbn; auto)) as Bb.
  pose proof (B c ltac:(cbn; auto)) as Bc. pose proof (B d ltac:(cbn; auto)) as Bd.
  destruct (C127_scalar t a b c d ka kb kc kd Wd Nl Nr) as (l & r & res & El & Er & E & I).
  rewrite (make_ok t x0 y0 W H) in El, Er by assumption. injection El as <-. injection Er as <-.
  destruct res as [[n dn]|]; [|exfalso; destruct I as [I|I]; [now apply Par|]; apply I; exists x, y; split; [eexists; eauto | exact On]].
  destruct I as (D0 & I1 & I2 & _ & s & x' & y' & Es & J1 & J2 & L & (u' & On' & _)).
  destruct On as (u & On & _).
  pose proof (common_unique a b c d _ _ _ _ _ _ _ _ Par At L On On') as Eq. subst s.
  destruct (scalar_val t a b c d ka kb kc kd n dn Wd E) as [Vn Vd].
  exists (K (make_line a b) ka kb), (K (make_line c d) kc kd). eexists.
  split; [apply (make_ok t x0 y0 W H); assumption|]. split; [apply (make_ok t x0 y0 W H); assumption|].
  unfold mintersect_point. rewrite E. cbn [bind]. split; [reflexivity|].
  pose proof (scalar_div _ n dn D0 Es) as S.
  pose proof (Sm a ltac:(cbn; auto)) as [A1 A2]. pose proof (Sm b ltac:(cbn; auto)) as [B1 B2].
  pose proof (Sm c ltac:(cbn; auto)) as [C1 C2]. pose proof (Sm d ltac:(cbn; auto)) as [D1 D2].
  assert (T26 : 2 ^ 26 = 2 * 2 ^ 25) by reflexivity. assert (T53 : 2 ^ 53 = 2 * (2 ^ 26 * 2 ^ 26)) by reflexivity.
  assert (Sn : small n) by (subst n; apply small_area; assumption).
  assert (Sd : small dn) by (subst dn; apply small_area; assumption).
  assert (T0 : 2 ^ k <> 0) by (pose proof (Z.pow_pos_nonneg 2 k ltac:(lia) ltac:(lia)); lia).
  assert (Er : (inject_Z n / inject_Z dn == inject_Z m * 2 ^ (- k))%Q).
  { rewrite <- S. rewrite (scalar_div (qz m / qz (2 ^ k))%Qc m (2 ^ k) T0).
    - rewrite FGeoProofs.two_Z by lia. unfold Qdiv. rewrite Qpower.Qpower_opp. reflexivity.
    - field. change 0%Qc with (qz 0). intro X. apply T0. now apply qz_inj. }
  assert (Tk : 0 < 2 ^ k <= 2 ^ 26) by (split; [apply Z.pow_pos_nonneg; lia | apply Z.pow_le_mono_r; lia]).
  destruct At as (X1 & X2).
  assert (main : forall p q (z : Qc), Z.abs p <= 2 ^ 25 -> Z.abs q <= 2 ^ 25 ->
    z = (qz p + qz m / qz (2 ^ k) * (qz q - qz p))%Qc ->
    exactly (fadd double (of_int p) (fmul double (mratio n dn) (of_int (q - p)))) z).
  { intros p q z P Q Ez. assert (V : Z.abs (q - p) <= 2 ^ 26) by lia.
    pose proof (abs_mul_le _ _ _ _ Hm V) as MV.
    assert (PK : Z.abs (p * 2 ^ k) <= 2 ^ 25 * 2 ^ 26).
    { apply abs_mul_le; [exact P|]. rewrite Z.abs_eq by lia. apply Tk. }
    clear - P Q V MV PK Hm Sn Sd D0 Er Hk T26 T53 Ez S.
    assert (SM : small m /\ small p /\ small (q - p) /\ small (m * (q - p)) /\ small (p * 2 ^ k + m * (q - p))).
    { clear - P Q V MV PK Hm T26 T53. unfold small. set (mv := m * (q - p)) in *. set (pk := p * 2 ^ k) in *. clearbody mv pk. lia. }
    destruct SM as (M1 & M2 & M3 & M4 & M5).
    destruct (coord_exact n dn p (q - p) m k Sn Sd D0 Er ltac:(clear - Hk; lia) M1 M2 M3 M4 M5) as (v & Ev & Fv).
    exists v. split; [exact Ev|]. rewrite Fv. symmetry. exact (at_value p q _ n dn z S Ez). }
  split; cbn [fline_at k_line make_line lbegin lvec psub px py fx fy]; apply main; assumption.
Qed.
(** ** Projection *)
(** Coordinates of the signed type [t] in a box whose sides fit into it and whose squared diagonal fits
    into the type of the products. *)
Definition fits (t : ity) (pts : list pt) : Prop :=
  0 < bits t /\ IntTypes.sgn t = true /\
  exists x0 y0 W H, (forall q, In q pts -> in_box x0 y0 W H q /\ in_ity t (px q) /\ in_ity t (py q)) /\
    W < ihigh t /\ H < ihigh t /\ W * W + H * H <= top t.
Definition dotz (u v : pt) : Z := px u * px v + py u * py v.

Lemma scalar_product_ok t W H u v : IntTypes.sgn t = true -> W * W + H * H <= top t ->
  Z.abs (px u) <= W -> Z.abs (py u) <= H -> Z.abs (px v) <= W -> Z.abs (py v) <= H ->
  mdot t u v = Ok (dotz u v) /\ in_ity (promote t) (dotz u v).
Proof.
  intros HS HA U1 U2 V1 V2. pose proof (abs_mul_le _ _ _ _ U1 V1). pose proof (abs_mul_le _ _ _ _ U2 V2).
  assert (Z.abs (dotz u v) <= top t) by (unfold dotz; lia).
  split; [|apply in_top; [now apply sgn_promote | assumption]].
  unfold mdot, mmul, madd. rewrite arith_ok by ((now apply sgn_promote) || nia). cbn [bind].
  rewrite Z.add_0_l, arith_ok by ((now apply sgn_promote) || nia). cbn [bind].
  rewrite arith_ok by ((now apply sgn_promote) || nia). cbn [bind].
  rewrite arith_ok by ((now apply sgn_promote) || (unfold dotz in *; lia)). reflexivity.
Qed.
Lemma dot_promote t u v : mdot (promote t) u v = mdot t u v.
Proof. unfold mdot, mmul, madd. now rewrite promote_idem. Qed.

Lemma mproject_ok t p a b : fits t [p; a; b] ->
  mmake_line t a b = Ok (make_line a b) /\
  mproject t p (make_line a b) = Ok (fline_at (make_line a b) (mratio (dotz (psub p a) (psub b a)) (dotz (psub b a) (psub b a)))) /\
  in_ity (promote t) (dotz (psub p a) (psub b a)) /\ in_ity (promote t) (dotz (psub b a) (psub b a)).
Proof.
  intros (Hb & HS & x0 & y0 & W & H & B & HW & HH & HA).
  pose proof (B p ltac:(cbn; auto)) as Bp. pose proof (B a ltac:(cbn; auto)) as Ba. pose proof (B b ltac:(cbn; auto)) as Bb.
  assert (W0 : 0 <= W /\ 0 <= H) by (unfold in_box in Ba; lia).
  assert (SH : forall u v, In u [p; a; b] -> In v [p; a; b] -> Z.abs (px (psub u v)) <= W /\ Z.abs (py (psub u v)) <= H).
  { intros u v Hu Hv. pose proof (B u Hu) as (X & _). pose proof (B v Hv) as (Y & _). unfold in_box, psub in *. cbn [px py]. lia. }
  destruct (SH p a ltac:(cbn; auto) ltac:(cbn; auto)) as [S1 S2]. destruct (SH b a ltac:(cbn; auto) ltac:(cbn; auto)) as [S3 S4].
  destruct (scalar_product_ok t W H (psub p a) (psub b a) HS HA S1 S2 S3 S4) as [E1 I1].
  destruct (scalar_product_ok t W H (psub b a) (psub b a) HS HA S3 S4 S3 S4) as [E2 I2].
  split; [apply (mmake_line_ok t x0 y0 W H); try assumption; try nia; apply Ba || apply Bb|].
  split; [|split; assumption].
  unfold mproject, mproject_scalar. cbn [make_line lbegin lvec].
  rewrite (MDistProofs.psub_box t x0 y0 W H HS HA) by (apply Bp || apply Ba). cbn [bind].
  rewrite dot_promote, E1. cbn [bind]. rewrite E2. reflexivity.
Qed.

(** The point computed is near the foot of the perpendicular. *)
Theorem C132_project : forall t p a b, fits t [p; a; b] -> bits t <= 64 -> a <> b ->
  exists l r x y, mmake_line t a b = Ok l /\ mproject t p l = Ok r /\
    (exists s, lies_at a b s x y) /\
    ((x - qz (px p)) * (qz (px b) - qz (px a)) + (y - qz (py p)) * (qz (py b) - qz (py a)) = 0)%Qc /\
    near (fx r) (px a) x /\ near (fy r) (py a) y.
Proof.
  intros t p a b Ft B64 N. destruct (mproject_ok t p a b Ft) as (E1 & E2 & I1 & I2).
  destruct Ft as (Hb & HS & x0 & y0 & W & H & B & _).
  destruct (B a ltac:(cbn; auto)) as (_ & A1 & A2). destruct (B b ltac:(cbn; auto)) as (_ & B1 & B2).
  set (n := dotz (psub p a) (psub b a)) in *. set (d := dotz (psub b a) (psub b a)) in *.
  assert (D0 : d <> 0).
  { unfold d, dotz, psub. cbn [px py]. intros X. apply N. pose proof (Z.square_nonneg (px b - px a)). pose proof (Z.square_nonneg (py b - py a)).
    assert (px b - px a = 0) by nia. assert (py b - py a = 0) by nia. destruct a, b. cbn in *. f_equal; lia. }
  assert (DQ : qz d <> 0%Qc) by (change 0%Qc with (qz 0); intro X; apply D0; now apply qz_inj).
  set (s := (qz n / qz d)%Qc).
  assert (Es : (s * qz d)%Qc = qz n) by (unfold s; field; exact DQ).
  exists (make_line a b). eexists. exists (qz (px a) + s * (qz (px b) - qz (px a)))%Qc, (qz (py a) + s * (qz (py b) - qz (py a)))%Qc.
  split; [exact E1|]. split; [exact E2|]. split; [exists s; split; reflexivity|]. split.
  - rewrite <- !qz_sub.
    transitivity (s * qz d - qz n)%Qc; [|rewrite Es; ring].
    unfold n, d, dotz, psub. cbn [px py]. rewrite !qz_add, !qz_mul, !qz_sub. ring.
  - pose proof (scalar_div s n d D0 Es) as S.
    pose proof (med_ity t n B64 I1). pose proof (med_ity t d B64 I2).
    split; cbn [fline_at make_line lbegin lvec psub px py fx fy]; apply near_coord; try assumption;
      eauto using med_coord, med_diff, at_value.
Qed.

(** A line whose ends are equal has no direction: both coordinates are not numbers. *)
Theorem C132_project_degenerate : forall t p a, fits t [p; a] ->
  exists l, mmake_line t a a = Ok l /\ mproject t p l = Ok (FP NaN NaN).
Proof.
  intros t p a (Hb & HS & x0 & y0 & W & H & B & R).
  destruct (mproject_ok t p a a) as (E1 & E2 & _).
  { split; [exact Hb|]. split; [exact HS|]. exists x0, y0, W, H. split; [|exact R]. intros q [X|[X|[X|[]]]]; apply B; cbn; auto. }
  exists (make_line a a). split; [exact E1|]. rewrite E2.
  assert (Z : psub a a = P 0 0) by (unfold psub; now rewrite !Z.sub_diag).
  assert (Z1 : dotz (psub p a) (P 0 0) = 0) by (unfold dotz; cbn [px py]; lia).
  rewrite !Z, Z1. change (mratio 0 (dotz (P 0 0) (P 0 0))) with NaN.
  unfold fline_at. f_equal. unfold fmul, fadd. destruct (of_int (px (lbegin (make_line a a)))), (of_int (py (lbegin (make_line a a)))); reflexivity.
Qed.

(** ** Cases *)
Ltac wide_case x0 y0 W H := split; [reflexivity|]; split; [reflexivity|]; exists x0, y0, W, H;
  split; [intros q [<-|[<-|[<-|[<-|[]]]]]; repeat split; vm_compute; intuition discriminate | repeat split; vm_compute; intuition discriminate].
Example C132_case :
  wide int32 [P 0 0; P 8 4; P 0 4; P 8 0] /\
  mintersect_point int32 (K (make_line (P 0 0) (P 8 4)) VecModel.Closed VecModel.Closed)
    (K (make_line (P 0 4) (P 8 0)) VecModel.Closed VecModel.Closed) = Ok (Some (FP (Fin 4) (Fin 2))) /\
  lies_at (P 0 0) (P 8 4) (qz 1 / qz (2 ^ 1))%Qc (qz 4) (qz 2) /\
  mproject int32 (P 3 4) (make_line (P 0 0) (P 8 0)) = Ok (FP (Fin 3) (Fin 0)).
Proof.
  split; [wide_case 0 0 8 4|]. split; [vm_compute; reflexivity|]. split; [split; apply Qc_is_canon; vm_compute; reflexivity | vm_compute; reflexivity].
Qed.

(** Although the common point has integer coordinates, the computed one is not on the second line. *)
Theorem C132_on_second_refuted : exists t a b c d q, wide t [a; b; c; d] /\
  lies_on a b VecModel.Closed VecModel.Closed (qz 1) (qz 0) /\ lies_on c d VecModel.Closed VecModel.Closed (qz 1) (qz 0) /\
  mintersect_point t (K (make_line a b) VecModel.Closed VecModel.Closed) (K (make_line c d) VecModel.Closed VecModel.Closed)
    = Ok (Some (FP (Fin q) (Fin 0))) /\
  (px c = 1 /\ px d = 1) /\ (q < 1)%Q.
Proof.
  exists int32, (P 0 0), (P 49 0), (P 1 (-1)), (P 1 1). eexists. split; [wide_case 0 (-1) 49 2|].
  split; [exists (qz 1 / qz 49)%Qc; repeat split; try (apply Qc_is_canon; vm_compute; reflexivity); vm_compute; discriminate|].
  split; [exists (qz 1 / qz 2)%Qc; repeat split; try (apply Qc_is_canon; vm_compute; reflexivity); vm_compute; discriminate|].
  split; [vm_compute; reflexivity|]. split; [split; reflexivity | vm_compute; reflexivity].
Qed.

(** The computed point of an open segment may be its end, which does not belong to it. *)
Theorem C132_open_end_refuted : exists t a b c d, wide t [a; b; c; d] /\
  ~ lies_on a b VecModel.Open VecModel.Open (qz (px a)) (qz (py a)) /\
  mintersect_point t (K (make_line a b) VecModel.Open VecModel.Open) (K (make_line c d) VecModel.Closed VecModel.Closed)
    = Ok (Some (FP (Fin (inject_Z (px a))) (Fin (inject_Z (py a))))).
Proof.
  exists int64, (P (2 ^ 30) 0), (P (2 ^ 30 + 1) 0), (P (2 ^ 30) (-1)), (P (2 ^ 30 + 1) (2 ^ 24 - 1)).
  split; [wide_case (2 ^ 30) (-1) 1 (2 ^ 24)|]. split; [|vm_compute; reflexivity].
  intros (s & (E & _) & (S & _)). cbn [px] in E.
  assert (X : s = 0%Qc); [|subst s; discriminate].
  rewrite <- (qz_sub (2 ^ 30 + 1)) in E. change (2 ^ 30 + 1 - 2 ^ 30) with 1 in E. change (qz 1) with 1%Qc in E.
  transitivity (qz (2 ^ 30) + s * 1 - qz (2 ^ 30))%Qc; [ring | rewrite <- E; ring].
Qed.

Print Assumptions C132_accuracy.
Print Assumptions C132_in_box.
Print Assumptions C132_exact.
Print Assumptions C132_project.
Print Assumptions C132_project_degenerate.
Print Assumptions C132_on_second_refuted.
Print Assumptions C132_open_end_refuted.
