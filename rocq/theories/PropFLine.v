(** C135: crossing of lines, rays and segments over floating point numbers. *)
From Coq Require Import ZArith QArith Qpower Qabs Qcanon List Bool Lia Lqa.
From Verif Require Import Outcome FGeoModel FGeoProofs GeoModel MGeoProofs FPolyModel FPolyProofs PropFPoly FCrossModel MCrossModel PropMCross
  FLineModel FLineProofs.
From Verif Require VecModel CrossModel CrossProofs PropCross.
Import ListNotations.
Local Open Scope Z_scope.

(** [grid e p]: the point with coordinates [x 2^e] and [y 2^e]; [fine f e]: the format has all multiples
    of 2^e and 2^(2 e) up to 2^prec of them (PropFPoly.v); [lies_on a b ka kb x y]: the point (x, y),
    measured in steps of the grid, is on the line, ray or segment from a to b (PropMCross.v). *)

(** The points are numbers of the format in a box of W x H steps with 2 W H at most 2^prec. *)
Definition exact_box (f : format) (pts : list pt) : Prop :=
  exists x0 y0 W H, (forall q, In q pts -> in_box x0 y0 W H q /\ Z.abs (px q) <= 2 ^ prec f /\ Z.abs (py q) <= 2 ^ prec f) /\
    W <= 2 ^ prec f /\ H <= 2 ^ prec f /\ 2 * (W * H) <= 2 ^ prec f.
(** The same number, the same point. *)
Definition same (a b : num) : Prop :=
  match a, b with Fin x, Fin y => (x == y)%Q | Inf n, Inf m => n = m | NaN, NaN => True | _, _ => False end.
Definition same_point (a b : fpt) : Prop := same (fx a) (fx b) /\ same (fy a) (fy b).

Section Main.
  Context (f : format) (e : Z) (a b c d : pt) (ka kb kc kd : VecModel.endpoint).
  Let g := fmake_kline f (grid e a) (grid e b) ka kb.
  Let h := fmake_kline f (grid e c) (grid e d) kc kd.
  Let l := K (make_line a b) ka kb.
  Let r := K (make_line c d) kc kd.
  Lemma main : fine f e -> exact_box f [a; b; c; d] ->
    fcrosses f g h = CrossModel.crosses_lines (toq l) (toq r) /\
    ((CrossModel.intersect (toq l) (toq r) = [] /\ fintersect f g h = []) \/
     (area (psub d c) (psub b a) <> 0 /\ CrossModel.intersect (toq l) (toq r) <> [] /\ fintersect f g h <> []) \/
     exists p q kp kq m, CrossModel.intersect (toq l) (toq r) = [toq (K (make_line p q) kp kq)] /\
        fintersect f g h = [m] /\ rl e (K (make_line p q) kp kq) m) /\
    ((CrossModel.intersect_scalar (toq l) (toq r) = [] /\ fintersect_scalar f g h = []) \/
      exists n m, m <> 0 /\ CrossModel.intersect_scalar (toq l) (toq r) = [(qz n / qz m)%Qc] /\
        fintersect_scalar f g h = [to_num f (inject_Z n / inject_Z m)]).
  Proof.
    intros (Hp & E1 & E2 & M1 & M2) (x0 & y0 & W & H & B & HW & HH & HA).
    pose proof (B a ltac:(cbn; auto)) as Ba. pose proof (B b ltac:(cbn; auto)) as Bb.
    pose proof (B c ltac:(cbn; auto)) as Bc. pose proof (B d ltac:(cbn; auto)) as Bd.
    assert (Rl : rl e l g) by (apply make_rl with (x0 := x0) (y0 := y0) (W := W) (H := H); auto using pat_grid).
    assert (Rr : rl e r h) by (apply make_rl with (x0 := x0) (y0 := y0) (W := W) (H := H); auto using pat_grid).
    split; [|split].
    - exact (crosses_rl f e Hp E1 E2 M1 M2 x0 y0 W H HW HH HA a b c d ka kb kc kd g h Ba Bb Bc Bd Rl Rr).
    - destruct (intersect_rl f e Hp E1 E2 M1 M2 x0 y0 W H HW HH HA a b c d ka kb kc kd g h Ba Bb Bc Bd Rl Rr)
        as [X|[X|(p & q & kp & kq & m & X1 & X2 & _ & _ & X3)]]; [now left|now right; left|].
      right. right. exists p, q, kp, kq, m. auto.
    - exact (scalar_rl f e Hp E1 E2 M1 M2 x0 y0 W H HW HH HA a b c d ka kb kc kd g h Ba Bb Bc Bd Rl Rr).
  Qed.
End Main.

(** ** Points of a grid *)
(** The answer is whether there is a common point. *)
Theorem C135_crosses : forall f e a b c d ka kb kc kd, fine f e -> exact_box f [a; b; c; d] -> a <> b -> c <> d ->
  (px b - px a) * (py d - py c) <> (py b - py a) * (px d - px c)
  \/ ka <> VecModel.Open /\ kb <> VecModel.Open /\ kc <> VecModel.Open /\ kd <> VecModel.Open ->
  fcrosses f (fmake_kline f (grid e a) (grid e b) ka kb) (fmake_kline f (grid e c) (grid e d) kc kd) = true <->
  exists x y, lies_on a b ka kb x y /\ lies_on c d kc kd x y.
Proof.
  intros f e a b c d ka kb kc kd Fi Ex Nl Nr Par.
  destruct (main f e a b c d ka kb kc kd Fi Ex) as (-> & _).
  rewrite (PropCross.C81_crosses _ _ (line_in_toq a b ka kb Nl) (line_in_toq c d kc kd Nr)).
  - split.
    + intros (q & Q1 & Q2). apply contains_toq in Q1, Q2. destruct Q1 as (x & y & -> & Q1), Q2 as (x' & y' & E & Q2).
      injection E as <- <-. eauto.
    + intros (x & y & Q1 & Q2). exists [x; y]. split; apply contains_toq; eauto.
  - destruct Par as [N|N]; [left|right; exact N]. apply parallel_toq. unfold area, psub. cbn [px py]. lia.
Qed.

(** The scalar is the number of the format nearest to the exact position of the common point on the
    first line; without a common point, or if the lines are parallel, there is none. *)
Theorem C135_scalar : forall f e a b c d ka kb kc kd, fine f e -> exact_box f [a; b; c; d] -> a <> b -> c <> d ->
  match fintersect_scalar f (fmake_kline f (grid e a) (grid e b) ka kb) (fmake_kline f (grid e c) (grid e d) kc kd) with
  | [] => (px b - px a) * (py d - py c) = (py b - py a) * (px d - px c)
      \/ ~ exists x y, lies_on a b ka kb x y /\ lies_on c d kc kd x y
  | [n] => (px b - px a) * (py d - py c) <> (py b - py a) * (px d - px c) /\
      exists s x y, n = to_num f (this s) /\ on_begin ka s /\ on_end kb s /\ lies_at a b s x y /\ lies_on c d kc kd x y
  | _ => False
  end.
Proof.
  intros f e a b c d ka kb kc kd Fi Ex Nl Nr.
  destruct (main f e a b c d ka kb kc kd Fi Ex) as (_ & _ & S).
  set (l := K (make_line a b) ka kb) in *. set (r := K (make_line c d) kc kd) in *.
  destruct (PropCross.C81_scalar (toq l) (toq r) (line_in_toq a b ka kb Nl) (line_in_toq c d kc kd Nr)) as [_ I].
  destruct S as [[S ->]|(n & m & M & S & ->)]; rewrite S in I.
  - destruct (Z.eq_dec ((px b - px a) * (py d - py c)) ((py b - py a) * (px d - px c))) as [X|X]; [now left|right].
    intros (x & y & (s & (L1 & L2) & J1 & J2) & R). apply (I s). split; [|split; [split; assumption|]].
    + apply parallel_toq. unfold area, psub. cbn [px py]. lia.
    + unfold l. rewrite at_toq, <- L1, <- L2. apply contains_toq. eauto.
  - destruct (proj1 (I (qz n / qz m)%Qc) ltac:(now left)) as (P & (J1 & J2) & Q).
    apply parallel_toq in P. apply contains_toq in Q. destruct Q as (x & y & Q & R).
    split; [unfold area, psub in P; cbn [px py] in P; lia|].
    exists (qz n / qz m)%Qc, x, y. split.
    { apply to_num_comp; [apply Fi|]. unfold Qcdiv, Qcmult, Qcinv, qz, Q2Qc. cbn [this]. rewrite !Qred_correct. reflexivity. }
    unfold l in Q. rewrite at_toq in Q. injection Q as <- <-. split; [exact J1|]. split; [exact J2|]. split; [split; reflexivity|exact R].
Qed.

(** The output for parallel lines with a common point is exact: a line through points of the grid whose
    points are the common points. *)
Theorem C135_common : forall f e a b c d ka kb kc kd, fine f e -> exact_box f [a; b; c; d] -> a <> b -> c <> d ->
  (px b - px a) * (py d - py c) = (py b - py a) * (px d - px c) ->
  (exists x y, lies_on a b ka kb x y /\ lies_on c d kc kd x y) ->
  exists p q kp kq m,
    fintersect f (fmake_kline f (grid e a) (grid e b) ka kb) (fmake_kline f (grid e c) (grid e d) kc kd) = [m] /\
    same_point (flbegin (fk_line m)) (grid e p) /\ same_point (flvec (fk_line m)) (grid e (P (px q - px p) (py q - py p))) /\
    fk_begin m = kp /\ fk_end m = kq /\
    forall x y, lies_on p q kp kq x y <-> lies_on a b ka kb x y /\ lies_on c d kc kd x y.
Proof.
  intros f e a b c d ka kb kc kd Fi Ex Nl Nr Par (x1 & y1 & C1 & C2).
  destruct (main f e a b c d ka kb kc kd Fi Ex) as (_ & S & _).
  destruct (PropCross.C81_intersect _ _ (line_in_toq a b ka kb Nl) (line_in_toq c d kc kd Nr)) as (m' & E & I).
  { exists [x1; y1]. split; apply contains_toq; eauto. }
  destruct S as [[S _]|[(N & _)|(p & q & kp & kq & m & S1 & S2 & R1 & R2 & R3 & R4)]].
  - rewrite S in E. discriminate.
  - exfalso. apply N. unfold area, psub. cbn [px py]. lia.
  - rewrite S1 in E. injection E as <-. exists p, q, kp, kq, m. split; [exact S2|].
    split; [exact (pat_pq _ _ _ R1)|]. split; [exact (pat_pq _ _ _ R2)|]. split; [now symmetry|]. split; [now symmetry|].
    intros x y. specialize (I [x; y]). rewrite !contains_toq in I. split.
    + intros X. destruct (proj1 I (ex_intro _ x (ex_intro _ y (conj eq_refl X)))) as [(x' & y' & E1 & A1) (x'' & y'' & E2 & A2)].
      injection E1 as <- <-. injection E2 as <- <-. now split.
    + intros [X Y]. destruct (proj2 I) as (x' & y' & E1 & A1).
      { split; exists x, y; auto. }
      injection E1 as <- <-. exact A1.
Qed.

(** ** Arbitrary numbers *)
Lemma bounded_mul q r k : (Qabs q <= 2 ^ k -> Qabs r <= 2 ^ k -> Qabs (q * r) <= 2 ^ (k + k))%Q.
Proof.
  intros A B. rewrite Qabs_Qmult, two_plus. apply Qle_trans with (Qabs q * 2 ^ k)%Q.
  - rewrite !(Qmult_comm (Qabs q)). apply Qmult_le_compat_r; [exact B|apply Qabs_nonneg].
  - apply Qmult_le_compat_r; [exact A|]. apply Qlt_le_weak, two_pos.
Qed.
Lemma round_le k q : (Qabs q <= 2 ^ k)%Q -> -1074 <= k <= 1023 ->
  exists r, to_num double q = Fin r /\ (Qabs r <= 2 ^ k)%Q.
Proof.
  intros A K. assert (Hp : 1 <= prec double) by (cbn; lia).
  assert (R : (round double (2 ^ k) == 2 ^ k)%Q).
  { apply round_exact; [exact Hp|]. exists 1, k. split; [symmetry; apply Qmult_1_l|]. cbn [prec emin double]. split; [reflexivity|lia]. }
  eexists. split.
  - apply to_num_finite; [exact Hp|cbn; lia|]. eapply Qle_trans; [exact A|]. apply two_le. cbn [emax double]. lia.
  - rewrite Qred_correct. apply Qabs_Qle_condition in A. destruct A as [A B].
    pose proof (round_mono double Hp _ _ B) as U. pose proof (round_mono double Hp _ _ A) as V. rewrite (round_opp double Hp) in V.
    apply Qabs_Qle_condition. split; lra.
Qed.
Lemma add_le k q r : (Qabs q <= 2 ^ k)%Q -> (Qabs r <= 2 ^ k)%Q -> (Qabs (q + r) <= 2 ^ (k + 1))%Q.
Proof.
  intros A B. pose proof (Qabs_triangle q r). rewrite two_plus. change (2 ^ 1)%Q with 2%Q. lra.
Qed.
(** A point with numbers of the format, of magnitude at most 2^510, as coordinates *)
Definition moderate (p : fpt) : Prop :=
  exists x y, p = FP (Fin x) (Fin y) /\ representable double x /\ representable double y /\ (Qabs x <= 2 ^ 510 /\ Qabs y <= 2 ^ 510)%Q.
Definition tame (p : fpt) : Prop := exists x y, p = FP (Fin x) (Fin y) /\ (Qabs x <= 2 ^ 511 /\ Qabs y <= 2 ^ 511)%Q.
Lemma vec_tame a b : moderate a -> moderate b -> tame (fpsub double a b).
Proof.
  intros (x & y & -> & _ & _ & X & Y) (x' & y' & -> & _ & _ & X' & Y'). unfold fpsub, fsub. cbn [fx fy fadd neg_num].
  rewrite <- Qabs_opp in X', Y'.
  destruct (round_le 511 _ (add_le 510 _ _ X X') ltac:(lia)) as (r & -> & R).
  destruct (round_le 511 _ (add_le 510 _ _ Y Y') ltac:(lia)) as (s & -> & S).
  exists r, s. auto.
Qed.
Lemma area_finite u v : tame u -> tame v -> exists t, farea double u v = Fin t.
Proof.
  intros (x & y & -> & X & Y) (x' & y' & -> & X' & Y'). unfold farea, fsub. cbn [fx fy fmul].
  destruct (round_le 1022 _ (bounded_mul _ _ 511 X Y') ltac:(lia)) as (r & -> & R).
  destruct (round_le 1022 _ (bounded_mul _ _ 511 Y X') ltac:(lia)) as (s & -> & S). cbn [neg_num fadd].
  rewrite <- Qabs_opp in S.
  destruct (round_le 1023 _ (add_le 1022 _ _ R S) ltac:(lia)) as (t & -> & _). now exists t.
Qed.

(** For doubles of magnitude at most 2^510: which line comes first does not matter, for lines assumed
    to be in general position and for others whose vectors are not taken for collinear. *)
Theorem C135_symmetric : forall a b c d ka kb kc kd, moderate a -> moderate b -> moderate c -> moderate d ->
  let l := fmake_kline double a b ka kb in
  let r := fmake_kline double c d kc kd in
  (fintersect_scalar double l r = [] <-> fintersect_scalar double r l = []) /\
  (forient double (fpsub double b a) (fpsub double d c) <> 0 -> fcrosses double l r = fcrosses double r l).
Proof.
  intros a b c d ka kb kc kd A B C D l r. assert (Hp : 1 <= prec double) by (cbn; lia).
  pose proof (vec_tame b a B A) as V. pose proof (vec_tame d c D C) as U.
  destruct (area_finite _ _ U V) as (t & T). destruct (area_finite _ _ V U) as (t' & T').
  assert (S : fintersect_scalar double l r = [] <-> fintersect_scalar double r l = []).
  { split; apply scalar_swap; auto; cbn [l r fmake_kline fk_line fmake_line flvec]; rewrite ?T, ?T'; discriminate. }
  split; [exact S|]. intros N.
  assert (K : forall g h, neq (farea double (flvec (fk_line h)) (flvec (fk_line g))) (Fin 0) = false ->
    fcrosses double g h = match fintersect_scalar double g h with [] => false | _ => true end).
  { intros g h E. unfold fcrosses, fintersect, fintersect_scalar. rewrite E. now destruct (fcross_test _ _ _ _ _). }
  unfold forient in N. rewrite T in N. cbn [fsgn] in N.
  pose proof (farea_swap double Hp (fpsub double b a) (fpsub double d c)) as W. rewrite T, T' in W. cbn [neg_num nq] in W.
  rewrite !K; [destruct (fintersect_scalar double l r), (fintersect_scalar double r l); intuition congruence| |];
    cbn [l r fmake_kline fk_line fmake_line flvec]; rewrite ?T, ?T'; cbn [neq];
    destruct (Qcompare_spec t 0), (Qcompare_spec t' 0); auto; try (now contradiction N); exfalso; lra.
Qed.
(** Lines which begin at the same point, not open there, meet in exactly this point, unless their
    vectors are taken for collinear. *)
Theorem C135_begin : forall a b d ka kb kc kd, moderate a -> moderate b -> moderate d ->
  forient double (fpsub double b a) (fpsub double d a) <> 0 -> ka <> VecModel.Open -> kc <> VecModel.Open ->
  let l := fmake_kline double a b ka kb in
  let r := fmake_kline double a d kc kd in
  fcrosses double l r = true /\ exists p, fintersect_general double l r = [p] /\ same_point p a.
Proof.
  intros a b d ka kb kc kd A B D N Ka Kc l r. assert (Hp : 1 <= prec double) by (cbn; lia).
  pose proof (vec_tame b a B A) as V. pose proof (vec_tame d a D A) as U.
  destruct (area_finite _ _ U V) as (t & T). unfold forient in N. rewrite T in N. cbn [fsgn] in N.
  assert (Z0 : forall q, (q == 0)%Q -> to_num double q = Fin 0).
  { intros q Q. rewrite (to_num_comp double Hp q 0 Q). reflexivity. }
  assert (O : fpsub double a a = fzero).
  { destruct A as (x & y & -> & _). unfold fpsub, fsub. cbn [fx fy fadd neg_num]. rewrite !Z0 by ring. reflexivity. }
  assert (Ar : forall v, tame v -> farea double fzero v = Fin 0).
  { intros v (x & y & -> & _). unfold farea, fsub, fzero. cbn [fx fy fmul]. rewrite !Z0 by ring. cbn [neg_num fadd]. apply Z0. reflexivity. }
  assert (E0 : neq (Fin t) (Fin 0) = false).
  { cbn [neq]. destruct (Qcompare t 0); auto. now contradiction N. }
  assert (X : fcross_test l r (Fin t) (Fin 0) (Fin 0) = true).
  { assert (P : forall q k, fk_begin k <> VecModel.Open -> (0 < q)%Q -> fline_test k (Fin 0) (Fin q) = true).
    { intros q k NO Q. unfold fline_test. apply andb_true_iff. split.
      - destruct (fk_begin k); try reflexivity. now contradiction NO.
      - destruct (fk_end k); cbn [CrossModel.endpoint_test nless]; auto.
        + destruct (Qcompare_spec q 0); auto. exfalso. lra.
        + destruct (Qcompare_spec 0 q); auto; exfalso; lra. }
    unfold fcross_test. cbn [nless]. destruct (Qcompare_spec t 0) as [Q|Q|Q].
    - now contradiction N.
    - apply andb_true_iff. split; (apply P; [assumption|lra]).
    - apply andb_true_iff. split; (apply P; [assumption|lra]). }
  assert (F : fdiv double (Fin 0) (Fin t) = Fin 0).
  { cbn [fdiv]. assert (Y : to_num double (0 / t) = Fin 0) by (apply Z0; unfold Qdiv; ring).
    destruct (Qcompare t 0); auto. now contradiction N. }
  assert (S : fintersect_scalar double l r = [Fin 0]).
  { unfold fintersect_scalar. cbn [l r fmake_kline fk_line fmake_line flvec flbegin]. rewrite T, E0, O, !Ar by assumption.
    fold l r. now rewrite X, F. }
  split.
  - unfold fcrosses, fintersect. cbn [l r fmake_kline fk_line fmake_line flvec flbegin]. rewrite T, E0, O, !Ar by assumption.
    fold l r. now rewrite X.
  - unfold fintersect_general. rewrite S. eexists. split; [reflexivity|].
    unfold fpoint_at. cbn [l fmake_kline fk_line fmake_line flvec flbegin].
    destruct V as (vx & vy & -> & _). destruct A as (x & y & -> & Rx & Ry & Ax & Ay). cbn [fx fy fmul]. rewrite !Z0 by ring.
    assert (G : forall z, representable double z -> (Qabs z <= 2 ^ 510)%Q -> same (fadd double (Fin z) (Fin 0)) (Fin z)).
    { intros z Rz Az. cbn [fadd]. rewrite (to_num_comp double Hp (z + 0) z) by ring.
      destruct (to_num_exact double Hp z Rz) as (z' & -> & E); [|exact E].
      eapply Qle_lt_trans; [exact Az|]. apply Qpower_lt_compat_l; [cbn; lia|reflexivity]. }
    split; cbn [fx fy]; apply G; assumption.
Qed.

(** The double nearest to a number of tenths, and points of such *)
Definition tenth (n : Z) : num := to_num double (inject_Z n / 10).
Definition tenths (x y : Z) : fpt := FP (tenth x) (tenth y).
Definition closed_segment (a b : fpt) : fkline := fmake_kline double a b VecModel.Closed VecModel.Closed.
Lemma tenths_moderate x y : Z.abs x <= 2 ^ 53 -> Z.abs y <= 2 ^ 53 -> moderate (tenths x y).
Proof.
  assert (Hp : 1 <= prec double) by (cbn; lia).
  assert (T : forall z, Z.abs z <= 2 ^ 53 -> exists q, tenth z = Fin q /\ representable double q /\ (Qabs q <= 2 ^ 510)%Q).
  { intros z Hz. assert (B : (Qabs (inject_Z z / 10) <= 2 ^ 53)%Q).
    { unfold Qdiv. rewrite Qabs_Qmult. change (Qabs (/ 10)) with (1 # 10)%Q. change (Qabs (inject_Z z)) with (inject_Z (Z.abs z)).
      assert (L : (inject_Z (Z.abs z) <= inject_Z (2 ^ 53))%Q) by (rewrite <- Zle_Qle; exact Hz).
      change (inject_Z (2 ^ 53)) with (2 ^ 53)%Q in L. assert (0 <= 2 ^ 53)%Q by (apply Qlt_le_weak, two_pos). lra. }
    unfold tenth. destruct (round_le 53 _ B ltac:(lia)) as (r & E & R). exists r. split; [exact E|]. split.
    - rewrite (to_num_finite double Hp) in E; [injection E as <-|cbn; lia|].
      + apply representable_eq with (round double (inject_Z z / 10)); [now rewrite Qred_correct|].
        apply round_representable; exact Hp.
      + eapply Qle_trans; [exact B|]. apply two_le. cbn. lia.
    - eapply Qle_trans; [exact R|]. apply two_le. lia. }
  intros X Y. destruct (T x X) as (q & E1 & A1 & B1), (T y Y) as (r & E2 & A2 & B2).
  exists q, r. unfold tenths. rewrite E1, E2. auto.
Qed.

(** Finding: segments with the same end, from (0.3, 0.3) and from (0.2, 0.1) to (0, 0.3), do not cross,
    although the end of both is this point and none of the areas is near zero. *)
Theorem C135_end_refuted : exists a b c, moderate a /\ moderate b /\ moderate c /\
  let l := closed_segment a b in
  let r := closed_segment c b in
  same_point (flend double (fk_line l)) b /\ same_point (flend double (fk_line r)) b /\
  forient double (fpsub double b a) (fpsub double b c) <> 0 /\
  fcrosses double l r = false /\ fintersect_general double l r = [].
Proof.
  exists (tenths 3 3), (tenths 0 3), (tenths 2 1). repeat (split; [apply tenths_moderate; lia|]).
  split; [split; vm_compute; reflexivity|]. split; [split; vm_compute; reflexivity|].
  split; [vm_compute; discriminate|]. split; vm_compute; reflexivity.
Qed.
(** Finding: for segments on one line the order matters: from (2.9, 2.9) to (3.6, 3.7) and from
    (2.2, 2.1) to (4.3, 4.5). *)
Theorem C135_order_refuted : exists a b c d, moderate a /\ moderate b /\ moderate c /\ moderate d /\
  fcrosses double (closed_segment a b) (closed_segment c d) = true /\
  fcrosses double (closed_segment c d) (closed_segment a b) = false.
Proof.
  exists (tenths 29 29), (tenths 36 37), (tenths 22 21), (tenths 43 45).
  repeat (split; [apply tenths_moderate; lia|]). split; vm_compute; reflexivity.
Qed.

Example C135_case :
  fine double (-4) /\ exact_box double [P 0 0; P 90000000 30000001; P 5 0; P 0 7] /\
  fcrosses double (fmake_kline double (grid (-4) (P 0 0)) (grid (-4) (P 90000000 30000001)) VecModel.Closed VecModel.Open)
    (fmake_kline double (grid (-4) (P 5 0)) (grid (-4) (P 0 7)) VecModel.Closed VecModel.Closed) = true /\
  fcrosses double (fmake_kline double (grid (-4) (P 0 0)) (grid (-4) (P 90000000 30000001)) VecModel.Closed VecModel.Open)
    (fmake_kline double (grid (-4) (P 5 0)) (grid (-4) (P 4 1)) VecModel.Closed VecModel.Closed) = false.
Proof.
  split; [unfold fine; cbn; lia|]. split.
  - exists 0, 0, 90000000, 30000001. split; [|repeat split; discriminate].
    intros q [<-|[<-|[<-|[<-|[]]]]]; unfold in_box; cbn [px py prec double]; lia.
  - split; vm_compute; reflexivity.
Qed.
Example C135_common_case : exists m,
  fintersect double (fmake_kline double (grid (-4) (P 0 0)) (grid (-4) (P 6 3)) VecModel.Closed VecModel.Closed)
    (fmake_kline double (grid (-4) (P 4 2)) (grid (-4) (P 2 1)) VecModel.Closed VecModel.Free) = [m] /\
  same_point (flbegin (fk_line m)) (grid (-4) (P 0 0)) /\ same_point (flvec (fk_line m)) (grid (-4) (P 4 2)).
Proof. eexists. split; [vm_compute; reflexivity|]. split; split; vm_compute; reflexivity. Qed.
Example C135_symmetric_case :
  let l := closed_segment (tenths 1 2) (tenths 7 3) in
  let r := closed_segment (tenths 5 0) (tenths 4 9) in
  moderate (tenths 1 2) /\ moderate (tenths 7 3) /\ moderate (tenths 5 0) /\ moderate (tenths 4 9) /\
  fcrosses double l r = true /\ fcrosses double r l = true /\
  forient double (fpsub double (tenths 7 3) (tenths 1 2)) (fpsub double (tenths 4 9) (tenths 5 0)) <> 0.
Proof.
  cbn zeta. repeat (split; [apply tenths_moderate; lia|]). split; [vm_compute; reflexivity|]. split; [vm_compute; reflexivity|]. vm_compute. discriminate.
Qed.

Print Assumptions C135_crosses.
Print Assumptions C135_scalar.
Print Assumptions C135_common.
Print Assumptions C135_symmetric.
Print Assumptions C135_begin.
Print Assumptions C135_end_refuted.
Print Assumptions C135_order_refuted.
