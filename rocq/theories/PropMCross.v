(** C127: crossing of lines, rays and segments over machine integers. *)
From Coq Require Import ZArith QArith Qcanon List Bool Lia.
From Verif Require Import Outcome IntTypes GeoModel MGeoModel MGeoProofs MCrossModel.
From Verif Require VecModel VecProofs CrossModel CrossProofs PropCross.
Import ListNotations.
Local Open Scope Z_scope.

(** ** Specification: a point with rational coordinates on the line from [a] to [b] *)
Definition qz (z : Z) : Qc := Q2Qc (inject_Z z).
Definition on_begin (k : VecModel.endpoint) (s : Qc) : Prop :=
  match k with VecModel.Free => True | VecModel.Closed => (0 <= s)%Qc | VecModel.Open => (0 < s)%Qc end.
Definition on_end (k : VecModel.endpoint) (s : Qc) : Prop :=
  match k with VecModel.Free => True | VecModel.Closed => (s <= 1)%Qc | VecModel.Open => (s < 1)%Qc end.
Definition lies_at (a b : pt) (s x y : Qc) : Prop :=
  x = (qz (px a) + s * (qz (px b) - qz (px a)))%Qc /\ y = (qz (py a) + s * (qz (py b) - qz (py a)))%Qc.
Definition lies_on (a b : pt) (ka kb : VecModel.endpoint) (x y : Qc) : Prop :=
  exists s, lies_at a b s x y /\ on_begin ka s /\ on_end kb s.

(** Coordinates of the signed type [t] in a box whose sides fit into it and whose doubled area fits
    into the type of the products. *)
Definition wide (t : ity) (pts : list pt) : Prop :=
  0 < bits t /\ IntTypes.sgn t = true /\
  exists x0 y0 W H, (forall q, In q pts -> in_box x0 y0 W H q /\ in_ity t (px q) /\ in_ity t (py q)) /\
    W < ihigh t /\ H < ihigh t /\ 2 * (W * H) <= top t.

(** ** Integers as rationals *)
Lemma qz_add a b : qz (a + b) = (qz a + qz b)%Qc.
Proof. apply Qc_is_canon. unfold qz, Qcplus, Qcmult, Qcopp, Q2Qc. cbn [this]. rewrite !Qred_correct, inject_Z_plus. reflexivity. Qed.
Lemma qz_mul a b : qz (a * b) = (qz a * qz b)%Qc.
Proof. apply Qc_is_canon. unfold qz, Qcplus, Qcmult, Qcopp, Q2Qc. cbn [this]. rewrite !Qred_correct, inject_Z_mult. reflexivity. Qed.
Lemma qz_opp a : qz (- a) = (- qz a)%Qc.
Proof. apply Qc_is_canon. unfold qz, Qcplus, Qcmult, Qcopp, Q2Qc. cbn [this]. rewrite !Qred_correct, inject_Z_opp. reflexivity. Qed.
Lemma qz_sub a b : qz (a - b) = (qz a - qz b)%Qc.
Proof. unfold Z.sub. now rewrite qz_add, qz_opp. Qed.
Lemma qz_lt a b : (qz a < qz b)%Qc <-> a < b.
Proof. unfold Qclt, qz, Q2Qc. cbn [this]. rewrite !Qred_correct. rewrite <- Zlt_Qlt. reflexivity. Qed.
Lemma qlt_qz a b : VecModel.qlt (qz a) (qz b) = (a <? b).
Proof.
  unfold VecModel.qlt. destruct (Qclt_le_dec (qz a) (qz b)) as [H|H]; symmetry.
  - apply Z.ltb_lt. now apply qz_lt.
  - apply Z.ltb_ge. destruct (Z.lt_ge_cases a b) as [K|K]; [|exact K].
    apply qz_lt in K. exfalso. exact (Qclt_not_le _ _ K H).
Qed.
Lemma qz_inj a b : qz a = qz b -> a = b.
Proof.
  intro E. assert (~ a < b) by (rewrite <- qz_lt, E; intro X; exact (Qclt_not_eq _ _ X eq_refl)).
  assert (~ b < a) by (rewrite <- qz_lt, E; intro X; exact (Qclt_not_eq _ _ X eq_refl)). lia.
Qed.
Lemma qz_0 : qz 0 = 0%Qc. Proof. reflexivity. Qed.
Lemma is0_qz a : VecModel.is0 (qz a) = (a =? 0).
Proof.
  unfold VecModel.is0. destruct (Qc_eq_dec (qz a) 0) as [E|E]; symmetry.
  - apply Z.eqb_eq. now apply qz_inj.
  - apply Z.eqb_neq. intros ->. now apply E.
Qed.

Arguments qz : simpl never.
Definition vz (p : pt) : VecModel.vec := [qz (px p); qz (py p)].
Definition toq (l : kline) : VecModel.line :=
  VecModel.L (vz (lbegin (k_line l))) (vz (lvec (k_line l))) (k_begin l) (k_end l).

Lemma vz_sub a b : VecModel.vsub (vz a) (vz b) = vz (psub a b).
Proof. unfold vz, psub. cbn [px py]. rewrite !qz_sub. reflexivity. Qed.
Lemma vz_add a b : VecModel.vadd (vz a) (vz b) = vz (padd a b).
Proof. unfold vz, padd. cbn [px py]. rewrite !qz_add. reflexivity. Qed.
Lemma area_vz a b : VecModel.area2 (vz a) (vz b) = qz (area a b).
Proof. unfold vz, area. rewrite qz_sub, !qz_mul. reflexivity. Qed.
Lemma vless_vz a b : CrossModel.vless (vz a) (vz b) = pless a b.
Proof.
  unfold vz, pless. cbn [CrossModel.vless]. rewrite !qlt_qz.
  destruct (Z.ltb_spec (px a) (px b)); [reflexivity|]. cbn [orb].
  destruct (Z.ltb_spec (px b) (px a)), (Z.eqb_spec (px a) (px b)); cbn; rewrite ?andb_false_r, ?orb_false_r; try lia; reflexivity.
Qed.
Lemma veq_vz a b : CrossModel.veq (vz a) (vz b) = peq a b.
Proof.
  unfold CrossModel.veq. rewrite !vless_vz. unfold pless, peq.
  destruct (Z.ltb_spec (px a) (px b)), (Z.ltb_spec (px b) (px a)), (Z.eqb_spec (px a) (px b)), (Z.eqb_spec (px b) (px a)),
    (Z.ltb_spec (py a) (py b)), (Z.ltb_spec (py b) (py a)), (Z.eqb_spec (py a) (py b)); cbn; try lia; reflexivity.
Qed.
Lemma endpoint_qz k a b : CrossModel.endpoint_test VecModel.qlt k (qz a) (qz b) = CrossModel.endpoint_test Z.ltb k a b.
Proof. destruct k; cbn; now rewrite ?qlt_qz. Qed.
Lemma line_test_qz l num den : CrossModel.line_test (toq l) (qz num) (qz den) = mline_test l num den.
Proof. unfold CrossModel.line_test, mline_test. change 0%Qc with (qz 0). now rewrite !endpoint_qz. Qed.

(** ** Arithmetic without overflow *)
Section Ok.
  Variable t : ity.
  Variables x0 y0 W H : Z.
  Hypothesis Hb : 0 < bits t.
  Hypothesis HS : IntTypes.sgn t = true.
  Hypothesis HW : W < ihigh t.
  Hypothesis HH : H < ihigh t.
  Hypothesis HA : 2 * (W * H) <= top t.
  Let box q := in_box x0 y0 W H q /\ in_ity t (px q) /\ in_ity t (py q).

  Lemma box_nn q : box q -> 0 <= W /\ 0 <= H.
  Proof. unfold box, in_box. lia. Qed.

  Lemma make_ok a b ka kb : box a -> box b -> mmake_kline t a b ka kb = Ok (K (make_line a b) ka kb).
  Proof.
    intros A B. pose proof (box_nn a A). unfold mmake_kline.
    rewrite (mmake_line_ok t x0 y0 W H) by (try exact Hb; try exact HS; try exact HW; try exact HH; try nia; apply A || apply B).
    reflexivity.
  Qed.

  (** Areas of vectors not longer than the box *)
  Definition short (v : pt) : Prop := Z.abs (px v) <= W /\ Z.abs (py v) <= H.
  Lemma short_sub a b : box a -> box b -> short (psub a b).
  Proof. unfold box, in_box, short. cbn [psub px py]. lia. Qed.
  Lemma area_ok u v : short u -> short v -> marea t u v = Ok (area u v) /\ Z.abs (area u v) <= top t.
  Proof.
    intros [U1 U2] [V1 V2].
    pose proof (abs_mul_le _ _ _ _ U1 V2) as M1. pose proof (abs_mul_le _ _ _ _ U2 V1) as M2.
    assert (E : Z.abs (area u v) <= top t) by (unfold area; lia).
    split; [|exact E]. unfold marea, mmul, msub.
    rewrite arith_ok by ((now apply sgn_promote) || lia). cbn [bind].
    rewrite arith_ok by ((now apply sgn_promote) || lia). cbn [bind].
    rewrite arith_ok by ((now apply sgn_promote) || (unfold area in E; lia)). reflexivity.
  Qed.
  Lemma area_ok' u v : short u -> short v -> marea (promote t) u v = Ok (area u v).
  Proof.
    intros U V. destruct (area_ok u v U V) as [E _]. unfold marea, mmul, msub in *. now rewrite promote_idem.
  Qed.
  Lemma sub_ok a b : box a -> box b -> mpsub t a b = Ok (psub a b).
  Proof.
    intros A B. pose proof (W_top t W HS HW). pose proof (H_top t H HS HH). unfold box, in_box in *.
    apply mpsub_ok; [now apply sgn_promote| |]; lia.
  Qed.

  Lemma cross_test_ok l r ta la ra : Z.abs ta <= top t -> Z.abs la <= top t -> Z.abs ra <= top t ->
    mcross_test t l r ta la ra = Ok (CrossModel.cross_test (toq l) (toq r) (qz ta) (qz la) (qz ra)).
  Proof.
    intros A B C. unfold mcross_test, CrossModel.cross_test. change 0%Qc with (qz 0). rewrite qlt_qz.
    rewrite <- !qz_opp, !line_test_qz. destruct (ta <? 0); [|reflexivity].
    unfold msub. rewrite !Z.sub_0_l, !arith_ok by ((now apply sgn_promote) || lia). reflexivity.
  Qed.

  Section Lines.
    Context (a b c d : pt) (ka kb kc kd : VecModel.endpoint).
    Context (A : box a) (B : box b) (C : box c) (D : box d).
    Notation l := (K (make_line a b) ka kb).
    Notation r := (K (make_line c d) kc kd).

    Lemma scalar_ok : exists o, mintersect_scalar t l r = Ok o /\
      CrossModel.intersect_scalar (toq l) (toq r) =
      match o with None => [] | Some (x, y) => [(qz x / qz y)%Qc] end /\
      match o with None => True | Some (x, y) => y <> 0 /\ in_ity (promote t) x /\ in_ity (promote t) y end.
    Proof.
      unfold mintersect_scalar, CrossModel.intersect_scalar.
      cbn [k_line k_begin k_end make_line lbegin lvec toq VecModel.lbegin VecModel.lvec].
      destruct (area_ok (psub d c) (psub b a)) as [E1 E1']; auto using short_sub.
      destruct (area_ok (psub a c) (psub d c)) as [_ E2']; auto using short_sub.
      destruct (area_ok (psub a c) (psub b a)) as [_ E3']; auto using short_sub.
      rewrite E1. cbn [bind]. rewrite area_vz, is0_qz.
      destruct (Z.eqb_spec (area (psub d c) (psub b a)) 0) as [|N0]; [now exists None|].
      rewrite sub_ok by assumption. cbn [bind]. rewrite !area_ok' by auto using short_sub. cbn [bind].
      rewrite cross_test_ok by assumption. cbn [bind]. rewrite vz_sub, !area_vz.
      unfold toq at 3 4. cbn [k_line k_begin k_end make_line lbegin lvec].
      destruct (CrossModel.cross_test _ _ _ _ _); cbn [negb]; eexists; (split; [reflexivity|]); (split; [reflexivity|]); [|exact I].
      split; [exact N0|]. split; apply in_top; try assumption; now apply sgn_promote.
    Qed.

    Lemma lend_ok u v : box u -> box v -> mlend t (make_line u v) = Ok v.
    Proof.
      intros U V. pose proof (W_top t W HS HW). pose proof (H_top t H HS HH). pose proof (high_promote t HS) as HP.
      unfold mlend, mpadd, madd, make_line. cbn [lbegin lvec psub px py].
      replace (px u + (px v - px u)) with (px v) by lia. replace (py u + (py v - py u)) with (py v) by lia.
      destruct V as (_ & V1 & V2).
      assert (I : forall z, in_ity t z -> iarith (promote t) z = Ok z).
      { intros z Z. unfold iarith. rewrite sgn_promote by exact HS. unfold in_ity in Z.
        assert (L : ilow (promote t) <= ilow t).
        { unfold ilow, ihigh in *. rewrite HS, (sgn_promote t HS) in *. lia. }
        assert (X : in_ityb (promote t) z = true); [|now rewrite X].
        unfold in_ityb. rewrite andb_true_iff, Z.leb_le, Z.ltb_lt. lia. }
      rewrite (I _ V1). cbn [bind]. rewrite (I _ V2). cbn [bind]. unfold mconv. cbn [px py].
      rewrite !wrap_id by assumption. destruct v. reflexivity.
    Qed.

    Lemma get_ok u v ku kv s : box u -> box v -> exists q k, mget_point t (K (make_line u v) ku kv) s = Ok (q, k) /\
      CrossModel.get_point (toq (K (make_line u v) ku kv)) s = (vz q, k) /\ box q.
    Proof.
      intros U V. unfold mget_point, CrossModel.get_point.
      assert (E : CrossModel.vless (map (fun _ => 0%Qc) (VecModel.lvec (toq (K (make_line u v) ku kv))))
        (VecModel.lvec (toq (K (make_line u v) ku kv))) = pless (P 0 0) (psub v u)).
      { rewrite <- vless_vz. reflexivity. }
      rewrite E. cbn [k_line make_line lvec].
      destruct (Bool.eqb (pless (P 0 0) (psub v u)) s).
      - exists u, ku. auto.
      - change (L u (psub v u)) with (make_line u v). rewrite lend_ok by assumption.
        exists v, kv. split; [reflexivity|]. split; [|exact V].
        unfold VecModel.lend, toq. cbn [VecModel.lbegin VecModel.lvec k_line k_begin k_end make_line lbegin lvec VecModel.kend].
        rewrite vz_add. unfold padd, psub. cbn [px py]. replace (px u + (px v - px u)) with (px v) by lia. replace (py u + (py v - py u)) with (py v) by lia.
        destruct v. reflexivity.
    Qed.

    Lemma max_ok q k q' k' s : CrossModel.max_endpoint (vz q, k) (vz q', k') s =
      (vz (fst (mmax_endpoint (q, k) (q', k') s)), snd (mmax_endpoint (q, k) (q', k') s)).
    Proof.
      unfold CrossModel.max_endpoint, mmax_endpoint. cbn [fst snd]. rewrite veq_vz, !vless_vz.
      repeat match goal with |- context [if ?x then _ else _] => destruct x end; reflexivity.
    Qed.

    Lemma max_box q k q' k' s : box q -> box q' -> box (fst (mmax_endpoint (q, k) (q', k') s)).
    Proof.
      intros. unfold mmax_endpoint. cbn [fst snd].
      repeat match goal with |- context [if ?x then _ else _] => destruct x end; assumption.
    Qed.

    Lemma common_ok : mcommon_line t l r =
      Ok (match CrossModel.common_line (toq l) (toq r) with [] => false | _ => true end).
    Proof.
      unfold mcommon_line, CrossModel.common_line.
      destruct (get_ok a b ka kb true A B) as (q1 & k1 & E1 & F1 & B1).
      destruct (get_ok c d kc kd true C D) as (q2 & k2 & E2 & F2 & B2).
      destruct (get_ok a b ka kb false A B) as (q3 & k3 & E3 & F3 & B3).
      destruct (get_ok c d kc kd false C D) as (q4 & k4 & E4 & F4 & B4).
      rewrite E1, E2, E3, E4, F1, F2, F3, F4. cbn [bind]. rewrite !max_ok.
      pose proof (max_box q1 k1 q2 k2 true B1 B2) as M1. pose proof (max_box q3 k3 q4 k4 false B3 B4) as M2.
      destruct (mmax_endpoint (q1, k1) (q2, k2) true) as [p1 e1].
      destruct (mmax_endpoint (q3, k3) (q4, k4) false) as [p2 e2]. cbn [fst snd] in *.
      assert (T : CrossModel.endpoint_test CrossModel.vless e1 (vz p1) (vz p2) = CrossModel.endpoint_test pless e1 p1 p2).
      { destruct e1; unfold CrossModel.endpoint_test; now rewrite ?vless_vz. }
      rewrite T. destruct (CrossModel.endpoint_test pless e1 p1 p2); [|reflexivity].
      rewrite !sub_ok by assumption. destruct (Nat.ltb _ _); reflexivity.
    Qed.

    Lemma crosses_ok : mcrosses t l r = Ok (CrossModel.crosses_lines (toq l) (toq r)).
    Proof.
      unfold mcrosses, CrossModel.crosses_lines, CrossModel.intersect.
      cbn [k_line k_begin k_end make_line lbegin lvec].
      change (VecModel.lvec (toq r)) with (vz (psub d c)). change (VecModel.lvec (toq l)) with (vz (psub b a)).
      change (VecModel.lbegin (toq r)) with (vz c). change (VecModel.lbegin (toq l)) with (vz a).
      destruct (area_ok (psub d c) (psub b a)) as [E1 E1']; auto using short_sub.
      destruct (area_ok (psub a c) (psub d c)) as [_ E2']; auto using short_sub.
      destruct (area_ok (psub a c) (psub b a)) as [_ E3']; auto using short_sub.
      rewrite E1. cbn [bind]. rewrite sub_ok by assumption. cbn [bind].
      rewrite !area_ok' by auto using short_sub. cbn [bind].
      rewrite vz_sub, !area_vz, !is0_qz.
      destruct (area (psub d c) (psub b a) =? 0).
      - destruct (area (psub a c) (psub d c) =? 0); [apply common_ok|reflexivity].
      - cbn [bind]. rewrite cross_test_ok by assumption.
        destruct (CrossModel.cross_test _ _ _ _ _); reflexivity.
    Qed.
  End Lines.
End Ok.

(** ** Points of lines *)
Lemma at_toq a b ka kb s : VecModel.at_ (toq (K (make_line a b) ka kb)) s =
  [(qz (px a) + s * (qz (px b) - qz (px a)))%Qc; (qz (py a) + s * (qz (py b) - qz (py a)))%Qc].
Proof.
  unfold VecModel.at_, toq, make_line, vz, psub. cbn [k_line k_begin k_end lbegin lvec px py VecModel.lbegin VecModel.lvec].
  rewrite !qz_sub. cbn. repeat f_equal; ring.
Qed.
Lemma contains_toq a b ka kb q : CrossProofs.contains (toq (K (make_line a b) ka kb)) q <->
  exists x y, q = [x; y] /\ lies_on a b ka kb x y.
Proof.
  unfold CrossProofs.contains, lies_on, lies_at. split.
  - intros (s & -> & I). rewrite at_toq. eexists _, _. split; [reflexivity|]. exists s. split; [split; reflexivity|exact I].
  - intros (x & y & -> & s & (E1 & E2) & I). exists s. rewrite at_toq, <- E1, <- E2. split; [reflexivity|exact I].
Qed.
Lemma line_in_toq a b ka kb : a <> b -> PropVec.line_in 2 (toq (K (make_line a b) ka kb)).
Proof.
  intro N. split; [reflexivity|]. split; [reflexivity|].
  cbn [toq make_line k_line lvec VecModel.lvec]. change 0%Qc with (qz 0).
  destruct (Z.eq_dec (px a) (px b)) as [E|E].
  - exists (qz (py (psub b a))). split; [right; now left|]. intro X. apply qz_inj in X. apply N. destruct a, b. cbn in *. f_equal; lia.
  - exists (qz (px (psub b a))). split; [now left|]. intro X. apply qz_inj in X. cbn in *. lia.
Qed.
Lemma parallel_toq a b c d ka kb kc kd : area (psub b a) (psub d c) <> 0 <->
  VecModel.area2 (VecModel.lvec (toq (K (make_line a b) ka kb))) (VecModel.lvec (toq (K (make_line c d) kc kd))) <> 0%Qc.
Proof.
  unfold toq, make_line. cbn [k_line lvec VecModel.lvec]. rewrite area_vz. change 0%Qc with (qz 0).
  split; intros N E; apply N; [now apply qz_inj|now f_equal].
Qed.
(** ** C127 *)
(** No step overflows, and the answer is whether there is a common point, with rational coordinates. *)
Theorem C127_crosses : forall t a b c d ka kb kc kd, wide t [a; b; c; d] -> a <> b -> c <> d ->
  (px b - px a) * (py d - py c) <> (py b - py a) * (px d - px c)
  \/ ka <> VecModel.Open /\ kb <> VecModel.Open /\ kc <> VecModel.Open /\ kd <> VecModel.Open ->
  exists l r res, mmake_kline t a b ka kb = Ok l /\ mmake_kline t c d kc kd = Ok r /\ mcrosses t l r = Ok res /\
    (res = true <-> exists x y, lies_on a b ka kb x y /\ lies_on c d kc kd x y).
Proof.
  intros t a b c d ka kb kc kd (Hb & HS & x0 & y0 & W & H & B & HW & HH & HA) Nl Nr Par.
  pose proof (B a ltac:(cbn; auto)) as Ba. pose proof (B b ltac:(cbn; auto)) as Bb.
  pose proof (B c ltac:(cbn; auto)) as Bc. pose proof (B d ltac:(cbn; auto)) as Bd.
  exists (K (make_line a b) ka kb), (K (make_line c d) kc kd). eexists.
  split; [apply (make_ok t x0 y0 W H); assumption|]. split; [apply (make_ok t x0 y0 W H); assumption|].
  split; [apply (crosses_ok t x0 y0 W H); assumption|].
  rewrite (PropCross.C81_crosses _ _ (line_in_toq a b ka kb Nl) (line_in_toq c d kc kd Nr)).
  - split.
    + intros (q & Q1 & Q2). apply contains_toq in Q1, Q2. destruct Q1 as (x & y & -> & Q1), Q2 as (x' & y' & E & Q2).
      injection E as <- <-. eauto.
    + intros (x & y & Q1 & Q2). exists [x; y]. split; apply contains_toq; eauto.
  - destruct Par as [N|N]; [left|right; exact N]. apply parallel_toq. unfold area, psub. cbn [px py]. lia.
Qed.

(** The ratio output is that of the common point of lines that are not parallel, and fits into the type
    of the products. *)
Theorem C127_scalar : forall t a b c d ka kb kc kd, wide t [a; b; c; d] -> a <> b -> c <> d ->
  exists l r res, mmake_kline t a b ka kb = Ok l /\ mmake_kline t c d kc kd = Ok r /\ mintersect_scalar t l r = Ok res /\
    match res with
    | Some (num, den) => den <> 0 /\ in_ity (promote t) num /\ in_ity (promote t) den /\
        (px b - px a) * (py d - py c) <> (py b - py a) * (px d - px c) /\
        exists s x y, (s * qz den)%Qc = qz num /\ on_begin ka s /\ on_end kb s /\ lies_at a b s x y /\ lies_on c d kc kd x y
    | None => (px b - px a) * (py d - py c) = (py b - py a) * (px d - px c)
        \/ ~ exists x y, lies_on a b ka kb x y /\ lies_on c d kc kd x y
    end.
Proof.
  intros t a b c d ka kb kc kd (Hb & HS & x0 & y0 & W & H & B & HW & HH & HA) Nl Nr.
  pose proof (B a ltac:(cbn; auto)) as Ba. pose proof (B b ltac:(cbn; auto)) as Bb.
  pose proof (B c ltac:(cbn; auto)) as Bc. pose proof (B d ltac:(cbn; auto)) as Bd.
  set (l := K (make_line a b) ka kb). set (r := K (make_line c d) kc kd).
  assert (S : exists o, mintersect_scalar t l r = Ok o /\
      CrossModel.intersect_scalar (toq l) (toq r) = match o with None => [] | Some (x, y) => [(qz x / qz y)%Qc] end /\
      match o with None => True | Some (x, y) => y <> 0 /\ in_ity (promote t) x /\ in_ity (promote t) y end)
    by (apply (scalar_ok t x0 y0 W H); assumption).
  destruct S as (o & E & F & G).
  exists l, r, o. split; [apply (make_ok t x0 y0 W H); assumption|]. split; [apply (make_ok t x0 y0 W H); assumption|]. split; [exact E|].
  destruct (PropCross.C81_scalar (toq l) (toq r) (line_in_toq a b ka kb Nl) (line_in_toq c d kc kd Nr)) as [_ I].
  rewrite F in I. destruct o as [[num den]|].
  - destruct G as (D & G1 & G2). split; [exact D|]. split; [exact G1|]. split; [exact G2|].
    destruct (proj1 (I (qz num / qz den)%Qc) ltac:(now left)) as (P & (J1 & J2) & Q).
    apply parallel_toq in P. apply contains_toq in Q. destruct Q as (x & y & Q & R).
    split; [unfold area, psub in P; cbn [px py] in P; lia|].
    exists (qz num / qz den)%Qc, x, y.
    split. { field. change 0%Qc with (qz 0). intro X. apply qz_inj in X. contradiction. }
    unfold l in Q. rewrite at_toq in Q. injection Q as <- <-. split; [exact J1|]. split; [exact J2|]. split; [split; reflexivity|exact R].
  - destruct (Z.eq_dec ((px b - px a) * (py d - py c)) ((py b - py a) * (px d - px c))) as [X|X]; [now left|right].
    intros (x & y & (s & (L1 & L2) & J1 & J2) & R). apply (I s). split; [|split; [split; assumption|]].
    + apply parallel_toq. unfold area, psub. cbn [px py]. lia.
    + apply contains_toq. exists x, y. unfold l. rewrite at_toq, <- L1, <- L2. auto.
Qed.

(** The bound is exact: if twice the area of a box does not fit, its diagonals overflow. *)
Theorem C127_tight : forall t W H, 0 < bits t -> IntTypes.sgn t = true -> 0 < W < ihigh t -> 0 < H < ihigh t -> top t < 2 * (W * H) ->
  exists l r, mmake_kline t (P 0 0) (P W H) VecModel.Closed VecModel.Closed = Ok l /\
    mmake_kline t (P 0 H) (P W 0) VecModel.Closed VecModel.Closed = Ok r /\ mcrosses t l r = UB.
Proof.
  intros t W H Hb HS HW HH HA. pose proof (W_top t W HS ltac:(lia)). pose proof (H_top t H HS ltac:(lia)).
  pose proof (sgn_promote t HS) as SP.
  assert (ML : forall a b, in_box 0 0 W H a -> in_box 0 0 W H b -> mmake_line t a b = Ok (make_line a b)).
  { intros. apply (mmake_line_ok t 0 0 W H); try assumption; lia. }
  eexists _, _. unfold mmake_kline.
  split; [rewrite ML by (unfold in_box; cbn; lia); reflexivity|].
  split; [rewrite ML by (unfold in_box; cbn; lia); reflexivity|].
  unfold mcrosses, make_line, psub, marea. cbn [k_line lvec px py].
  assert (X : mmul t (W - 0) (H - 0) = UB \/ mmul t (W - 0) (H - 0) = Ok (W * H) /\ W * H <= top t).
  { rewrite !Z.sub_0_r. unfold mmul. destruct (Z_lt_le_dec (top t) (W * H)) as [L|L].
    - left. now apply arith_ub.
    - right. split; [apply arith_ok; [assumption|nia]|exact L]. }
  destruct X as [-> | [-> L]]; [reflexivity|]. cbn [bind]. unfold mmul.
  rewrite arith_ok by (try assumption; nia). cbn [bind]. unfold msub.
  rewrite arith_ub by (try assumption; nia). reflexivity.
Qed.

(** Finding: over an unsigned type crossing segments with small coordinates are reported not to cross. *)
Theorem C127_unsigned_refuted : exists a b c d l r,
  (forall q, In q [a; b; c; d] -> 0 <= px q <= 2 /\ 0 <= py q <= 2) /\
  mmake_kline uint32 a b VecModel.Closed VecModel.Closed = Ok l /\ mmake_kline uint32 c d VecModel.Closed VecModel.Closed = Ok r /\
  mcrosses uint32 l r = Ok false /\ lies_on a b VecModel.Closed VecModel.Closed 1 1 /\ lies_on c d VecModel.Closed VecModel.Closed 1 1.
Proof.
  exists (P 0 2), (P 2 0), (P 0 0), (P 2 2).
  eexists _, _. split. { intros q [<-|[<-|[<-|[<-|[]]]]]; cbn; lia. }
  split; [vm_compute; reflexivity|]. split; [vm_compute; reflexivity|]. split; [vm_compute; reflexivity|].
  split; exists (Q2Qc (1 # 2)); repeat split; try (apply Qc_is_canon; reflexivity); cbn; discriminate.
Qed.

Example C127_case :
  let a := P (-10000) 5 in let b := P 20000 30000 in let c := P (-9000) 29000 in let d := P 19999 6 in
  wide int32 [a; b; c; d] /\ a <> b /\ c <> d /\
  (px b - px a) * (py d - py c) <> (py b - py a) * (px d - px c) /\
  (do l <- mmake_kline int32 a b VecModel.Closed VecModel.Open; do r <- mmake_kline int32 c d VecModel.Closed VecModel.Closed;
   do s <- mintersect_scalar int32 l r; do x <- mcrosses int32 l r; Ok (s, x)) = Ok (Some (869820005, 1739645005), true).
Proof.
  cbv zeta. split.
  { split; [reflexivity|]. split; [reflexivity|]. exists (-10000), 5, 30000, 29995. split.
    - intros q [<-|[<-|[<-|[<-|[]]]]]; unfold in_box, in_ity; cbn [px py]; change (ilow int32) with (-2147483648);
        change (ihigh int32) with 2147483648; lia.
    - vm_compute. repeat split; discriminate. }
  repeat split; try discriminate; vm_compute; try reflexivity; discriminate.
Qed.
Example C127_tight_case : 0 < 40000 < ihigh int32 /\ top int32 < 2 * (40000 * 40000).
Proof. vm_compute. repeat split; reflexivity. Qed.
Print Assumptions C127_crosses.
Print Assumptions C127_scalar.
Print Assumptions C127_tight.
Print Assumptions C127_unsigned_refuted.
