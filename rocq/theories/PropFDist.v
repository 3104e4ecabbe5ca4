(** C144: the distance of a point to a line, ray or segment over floating point numbers. *)
From Coq Require Import ZArith QArith Qpower Qabs List Bool Lia Lqa.
From Verif Require Import FGeoModel FGeoProofs GeoModel MGeoProofs FPolyModel FPolyProofs FCrossModel MCrossModel
  FLineModel FLineProofs FNearModel FNearProofs FDistModel FDistProofs.
From Verif Require VecModel.
Import ListNotations.
Local Open Scope Z_scope.

(** [grid e p]: the point with coordinates [x 2^e] and [y 2^e]. [apart2 p a b s]: the square of the distance of
    [p] and [a + s (b - a)], in steps of the grid; [covers ka kb s]: the latter belongs to the line, ray or
    segment, ends included (FDistProofs.v). *)

(** The format has the numbers needed: multiples of 2^e with prec bits, their squares and quotients. *)
Definition roomy (f : format) (e : Z) : Prop :=
  2 <= prec f /\ emin f + 2 * prec f <= e /\ emin f + prec f <= e + e /\ prec f + e + 1 < emax f /\ prec f + (e + e) + 1 < emax f.
(** The points are in a box whose diagonal, squared, is at most 2^prec steps. *)
Definition near_box (f : format) (pts : list pt) : Prop :=
  exists x0 y0 W H, (forall q, In q pts -> in_box x0 y0 W H q /\ Z.abs (px q) <= 2 ^ prec f /\ Z.abs (py q) <= 2 ^ prec f) /\
    W <= 2 ^ prec f /\ H <= 2 ^ prec f /\ W * W + H * H <= 2 ^ prec f.

Lemma setup f e p a b ka kb : roomy f e -> near_box f [p; a; b] ->
  (a <> b -> exists d, fdistance_line f (grid e p) (fmake_kline f (grid e a) (grid e b) ka kb) = Fin d /\ (d == pick f e p a b ka kb)%Q /\
     zdot (psub b a) (psub b a) <= 2 ^ prec f) /\
  (a = b -> fdistance_line f (grid e p) (fmake_kline f (grid e a) (grid e b) ka kb) = NaN).
Proof.
  intros (Hp & E1 & E2 & M1 & M2) (x0 & y0 & W & H & B & HW & HH & HS).
  pose proof (B p ltac:(cbn; auto)) as Bp. pose proof (B a ltac:(cbn; auto)) as Ba. pose proof (B b ltac:(cbn; auto)) as Bb.
  assert (L : rl e (K (make_line a b) ka kb) (fmake_kline f (grid e a) (grid e b) ka kb)).
  { apply make_rl with (x0 := x0) (y0 := y0) (W := W) (H := H); auto using pat_grid; lia. }
  split; intros N.
  - destruct (distance_value f e Hp E1 E2 M1 M2 x0 y0 W H HW HH HS p a b ka kb (grid e p) _ Bp Ba Bb (pat_grid e p) L N) as (d & D & V).
    exists d. split; [exact D|]. split; [exact V|].
    assert (S : brief W H (psub b a)) by (apply (brief_sub f ltac:(lia) x0 y0); assumption).
    pose proof (dot_bound f Hp W H HS _ _ S S). lia.
  - exact (degenerate_value f e Hp E1 E2 M1 M2 x0 y0 W H HW HH HS p a b ka kb (grid e p) _ Bp Ba Bb (pat_grid e p) L N).
Qed.

(** The result is a number within two roundings of the distance
    to a nearest point; both sides squared. *)
Theorem C144_distance : forall f e p a b ka kb, roomy f e -> near_box f [p; a; b] -> a <> b ->
  exists d s, fdistance_line f (grid e p) (fmake_kline f (grid e a) (grid e b) ka kb) = Fin d /\ (0 <= d)%Q /\
    covers ka kb s /\ (forall s', covers ka kb s' -> (apart2 p a b s <= apart2 p a b s')%Q) /\
    let u := (2 ^ (- prec f))%Q in
    (apart2 p a b s * 2 ^ (e + e) * (1 - u) ^ 4 <= d * d)%Q /\ (d * d <= apart2 p a b s * 2 ^ (e + e) * (1 + u) ^ 4)%Q.
Proof.
  intros f e p a b ka kb R B N. destruct (proj1 (setup f e p a b ka kb R B) N) as (d & D & V & Bn).
  destruct R as (Hp & E1 & E2 & M1 & M2). destruct (pick_nearest f e p a b ka kb Hp E1 E2 M1 M2 N Bn) as (P0 & s & C & M & Lo & Hi).
  exists d, s. split; [exact D|]. split; [now rewrite V|]. split; [exact C|]. split; [exact M|]. cbn zeta. rewrite V.
  unfold lo4, hi4, S2 in *. split; eapply Qle_trans; try eassumption; apply Qle_lteq; right; simpl; ring.
Qed.
Print Assumptions C144_distance.

(** The result is 0 exactly for the points of the line, ray or segment. *)
Theorem C144_zero : forall f e p a b ka kb, roomy f e -> near_box f [p; a; b] -> a <> b ->
  exists d, fdistance_line f (grid e p) (fmake_kline f (grid e a) (grid e b) ka kb) = Fin d /\
    ((d == 0)%Q <-> exists s, covers ka kb s /\ (apart2 p a b s == 0)%Q).
Proof.
  intros f e p a b ka kb R B N. destruct (C144_distance f e p a b ka kb R B N) as (d & s & D & D0 & C & M & Lo & Hi). cbn zeta in *.
  exists d. split; [exact D|]. pose proof (two_pos (e + e)) as PS.
  assert (U : (2 ^ (- prec f) <= 1 # 4)%Q) by (change (1 # 4) with (2 ^ (-2))%Q; apply two_le; destruct R; lia).
  set (u := (2 ^ (- prec f))%Q) in *. assert (K : (0 < (1 - u) ^ 4)%Q) by (apply Qpower_0_lt; lra).
  assert (A0 : forall t, (0 <= apart2 p a b t)%Q) by (intros t; unfold apart2; cbn zeta; match goal with |- (0 <= ?x * ?x + ?y * ?y)%Q => generalize x y; intros; nra end).
  split.
  - intros Z0. exists s. split; [exact C|]. specialize (A0 s). destruct (Qlt_le_dec 0 (apart2 p a b s)) as [G|G]; [exfalso|lra].
    assert (0 < apart2 p a b s * 2 ^ (e + e) * (1 - u) ^ 4)%Q by (apply Qmult_lt_0_compat; [apply Qmult_lt_0_compat; assumption|exact K]). rewrite Z0 in Lo. lra.
  - intros (t & Ct & At). specialize (M t Ct). specialize (A0 s). assert (E : (apart2 p a b s == 0)%Q) by lra. rewrite E in Hi.
    assert (d * d <= 0)%Q by lra. nra.
Qed.
Print Assumptions C144_zero.

(** A line given by its points in the other order has the same distance. *)
Theorem C144_reversed : forall f e p a b ka kb, roomy f e -> near_box f [p; a; b] -> a <> b ->
  exists d d', fdistance_line f (grid e p) (fmake_kline f (grid e a) (grid e b) ka kb) = Fin d /\
    fdistance_line f (grid e p) (fmake_kline f (grid e b) (grid e a) kb ka) = Fin d' /\ (d == d')%Q.
Proof.
  intros f e p a b ka kb R B N. destruct (proj1 (setup f e p a b ka kb R B) N) as (d & D & V & Bn).
  assert (B' : near_box f [p; b; a]).
  { destruct B as (x0 & y0 & W & H & B & X). exists x0, y0, W, H. split; [|exact X]. intros q Q. apply B. cbn in *. tauto. }
  destruct (proj1 (setup f e p b a kb ka R B') (not_eq_sym N)) as (d' & D' & V' & _).
  exists d, d'. split; [exact D|]. split; [exact D'|]. rewrite V, V'. unfold pick.
  assert (F1 : zdot (psub p b) (psub a b) = - zdot (psub p b) (psub b a)) by (unfold zdot, psub; cbn [px py]; ring).
  assert (F2 : zdot (psub p a) (psub a b) = - zdot (psub p a) (psub b a)) by (unfold zdot, psub; cbn [px py]; ring).
  assert (F3 : zdot (psub a b) (psub a b) = zdot (psub b a) (psub b a)) by (unfold zdot, psub; cbn [px py]; ring).
  assert (F4 : area (psub p b) (psub a b) = - area (psub p a) (psub b a)) by (unfold area, psub; cbn [px py]; ring).
  rewrite F1, F2, F3, F4. pose proof (dot_end p a b) as De. pose proof (zdot_pos _ (sub_nz _ _ N)) as C0.
  unfold zquot. rewrite Z.abs_opp.
  destruct (Z.ltb_spec (zdot (psub p a) (psub b a)) 0), (Z.ltb_spec 0 (- zdot (psub p a) (psub b a))); try lia;
  destruct (Z.ltb_spec 0 (zdot (psub p b) (psub b a))), (Z.ltb_spec (- zdot (psub p b) (psub b a)) 0); try lia;
  destruct (VecModel.is_free ka), (VecModel.is_free kb); cbn; reflexivity.
Qed.
Print Assumptions C144_reversed.
(** All points moved by the same steps: the same distance. *)
Theorem C144_moved : forall f e p a b t ka kb, roomy f e -> near_box f [p; a; b] -> near_box f [padd p t; padd a t; padd b t] -> a <> b ->
  exists d d', fdistance_line f (grid e p) (fmake_kline f (grid e a) (grid e b) ka kb) = Fin d /\
    fdistance_line f (grid e (padd p t)) (fmake_kline f (grid e (padd a t)) (grid e (padd b t)) ka kb) = Fin d' /\ (d == d')%Q.
Proof.
  intros f e p a b t ka kb R B B' N. destruct (proj1 (setup f e p a b ka kb R B) N) as (d & D & V & _).
  assert (N' : padd a t <> padd b t) by (destruct a as [a1 a2], b as [b1 b2], t as [t1 t2]; unfold padd; cbn; intros E; injection E; intros; apply N; f_equal; lia).
  destruct (proj1 (setup f e _ _ _ ka kb R B') N') as (d' & D' & V' & _).
  exists d, d'. split; [exact D|]. split; [exact D'|]. rewrite V, V'.
  assert (S : forall q r, psub (padd q t) (padd r t) = psub q r) by (intros; unfold psub, padd; cbn; f_equal; ring).
  unfold pick. rewrite !S. reflexivity.
Qed.
Print Assumptions C144_moved.

(** A segment whose ends are equal: the result is not a number, whatever the point. *)
Theorem C144_degenerate_refuted : forall f e p a ka kb, roomy f e -> near_box f [p; a; a] ->
  fdistance_line f (grid e p) (fmake_kline f (grid e a) (grid e a) ka kb) = NaN.
Proof. intros f e p a ka kb R B. exact (proj2 (setup f e p a a ka kb R B) eq_refl). Qed.
Print Assumptions C144_degenerate_refuted.
Lemma on_line_area p a b s : (apart2 p a b s == 0)%Q -> area (psub p a) (psub b a) = 0.
Proof.
  intros E. assert (A : (inject_Z (area (psub p a) (psub b a)) == 0)%Q); [|unfold Qeq, inject_Z in A; cbn in A; lia].
  unfold apart2 in E. cbn zeta in E. unfold area, psub. cbn [px py]. rewrite !Zsub_Q, !inject_Z_mult, !Zsub_Q. rewrite !Zsub_Q in E.
  set (x := (inject_Z (px p) - (inject_Z (px a) + s * (inject_Z (px b) - inject_Z (px a))))%Q) in *.
  set (y := (inject_Z (py p) - (inject_Z (py a) + s * (inject_Z (py b) - inject_Z (py a))))%Q) in *.
  assert (X : (x == 0)%Q) by (clear - E; clearbody x y; nra). assert (Y : (y == 0)%Q) by (clear - E; clearbody x y; nra).
  setoid_replace ((inject_Z (px p) - inject_Z (px a)) * (inject_Z (py b) - inject_Z (py a)) -
    (inject_Z (py p) - inject_Z (py a)) * (inject_Z (px b) - inject_Z (px a)))%Q
    with (x * (inject_Z (py b) - inject_Z (py a)) - y * (inject_Z (px b) - inject_Z (px a)))%Q by (unfold x, y; ring).
  rewrite X, Y. ring.
Qed.
(** Outside of such a box: a distance of 0 for a point that is not on the line, with all coordinates exact. *)
Theorem C144_far_refuted : exists p a b, roomy double 0 /\ a <> b /\
  Forall (fun q => Z.abs (px q) <= 2 ^ 28 /\ Z.abs (py q) <= 2 ^ 28) [p; a; b] /\
  (forall s, ~ (apart2 p a b s == 0)%Q) /\
  exists d, fdistance_line double (grid 0 p) (fmake_kline double (grid 0 a) (grid 0 b) VecModel.Free VecModel.Free) = Fin d /\ (d == 0)%Q.
Proof.
  exists (P (2 ^ 27 + 1) (2 ^ 27)), (P 0 0), (P (2 ^ 27) (2 ^ 27 - 1)). split; [unfold roomy, double; cbn; lia|]. split; [discriminate|].
  split; [repeat constructor; cbn; lia|]. split.
  - intros s E. apply on_line_area in E. vm_compute in E. discriminate.
  - eexists. split; [vm_compute; reflexivity|]. reflexivity.
Qed.
Print Assumptions C144_far_refuted.

(** ** Cases *)
Definition dseg (e : Z) (a b : pt) : fkline := fmake_kline double (grid e a) (grid e b) VecModel.Closed VecModel.Closed.
Definition value (n : num) (q : Q) : bool := match n with Fin x => Qeq_bool x q | _ => false end.
(** Coordinates in multiples of 1/1024. *)
Example C144_case : roomy double (-10) /\ near_box double [P 0 5; P 0 0; P 4 3] /\
  (* beside the segment *)
  value (fdistance_line double (grid (-10) (P 0 5)) (dseg (-10) (P 0 0) (P 4 3))) (4 # 1024) = true /\
  (* before the begin and behind the end; the line goes on *)
  value (fdistance_line double (grid (-10) (P (-6) (-8))) (dseg (-10) (P 0 0) (P 4 3))) (10 # 1024) = true /\
  value (fdistance_line double (grid (-10) (P 7 7)) (dseg (-10) (P 0 0) (P 4 3))) (5 # 1024) = true /\
  value (fdistance_line double (grid (-10) (P 8 6)) (fmake_kline double (grid (-10) (P 0 0)) (grid (-10) (P 4 3)) VecModel.Closed VecModel.Free)) 0 = true /\
  value (fdistance_line double (grid (-10) (P 8 6)) (dseg (-10) (P 0 0) (P 4 3))) (5 # 1024) = true /\
  (* the two ends *)
  value (fdistance_line double (grid (-10) (P 4 3)) (dseg (-10) (P 0 0) (P 4 3))) 0 = true /\
  value (fdistance_line double (grid (-10) (P 3 (-4))) (dseg (-10) (P 0 0) (P 4 3))) (5 # 1024) = true.
Proof.
  split; [unfold roomy, double; cbn; lia|]. split; [|repeat split; vm_compute; reflexivity].
  exists 0, 0, 10, 10. split; [|cbn; lia]. intros q [<-|[<-|[<-|[]]]]; unfold in_box; cbn; lia.
Qed.
(** A distance that is not a number of the format: 1 / sqrt 2 with 4 bits gives 12/16; the two roundings miss the nearest number, 11/16. *)
Definition small : format := {| prec := 4; emin := -30; emax := 30 |}.
Example C144_case_rounded : value (fdistance_line small (grid 0 (P 1 0)) (fmake_kline small (grid 0 (P 0 0)) (grid 0 (P 1 1)) VecModel.Free VecModel.Free)) (3 # 4) = true /\
  roomy small 0 /\ near_box small [P 1 0; P 0 0; P 1 1].
Proof.
  split; [vm_compute; reflexivity|]. split; [unfold roomy; cbn; lia|].
  exists 0, 0, 1, 1. split; [|cbn; lia]. intros q [<-|[<-|[<-|[]]]]; unfold in_box; cbn; lia.
Qed.
Example C144_case_moved : roomy double 0 /\ near_box double [P 0 5; P 0 0; P 4 3] /\ near_box double [P 100 5; P 100 0; P 104 3] /\ padd (P 4 3) (P 100 0) = P 104 3 /\
  near_box double [P 1 2; P 3 4; P 3 4].
Proof.
  split; [unfold roomy, double; cbn; lia|]. split; [|split; [|split; [reflexivity|]]].
  - exists 0, 0, 10, 10. split; [|cbn; lia]. intros q [<-|[<-|[<-|[]]]]; unfold in_box; cbn; lia.
  - exists 100, 0, 10, 10. split; [|cbn; lia]. intros q [<-|[<-|[<-|[]]]]; unfold in_box; cbn; lia.
  - exists 0, 0, 10, 10. split; [|cbn; lia]. intros q [<-|[<-|[<-|[]]]]; unfold in_box; cbn; lia.
Qed.
