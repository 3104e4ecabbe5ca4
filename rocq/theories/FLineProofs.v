(** Proofs about lines over floating point numbers: FLineModel.v. *)
From Coq Require Import ZArith QArith Qpower Qabs Qcanon List Bool Lia Lqa.
From Verif Require Import Outcome FGeoModel FGeoProofs GeoModel MGeoProofs FPolyModel FPolyProofs FCrossModel MCrossModel PropMCross FLineModel.
From Verif Require VecModel CrossModel PropCross.
Import ListNotations.
Local Open Scope Z_scope.

(** ** The same number *)
Definition nq (a b : num) : Prop :=
  match a, b with Fin x, Fin y => (x == y)%Q | Inf n, Inf m => n = m | NaN, NaN => True | _, _ => False end.
Definition pq (a b : fpt) : Prop := nq (fx a) (fx b) /\ nq (fy a) (fy b).
Definition neg_pt (p : fpt) : fpt := FP (neg_num (fx p)) (neg_num (fy p)).

Lemma nq_refl a : nq a a.
Proof. destruct a; cbn; auto. reflexivity. Qed.
Lemma nq_sym a b : nq a b -> nq b a.
Proof. destruct a, b; cbn; auto. intro E. now rewrite E. Qed.
Lemma nq_trans a b c : nq a b -> nq b c -> nq a c.
Proof. destruct a, b, c; cbn; try tauto; try congruence. intros E F. now rewrite E. Qed.
Lemma nq_neg a b : nq a b -> nq (neg_num a) (neg_num b).
Proof. destruct a, b; cbn; auto; [|now intros ->]. intro E. now rewrite E. Qed.
Lemma neg_neg a : nq (neg_num (neg_num a)) a.
Proof. destruct a as [q|[]|]; cbn; auto. ring. Qed.
Lemma nless_nq a a' b b' : nq a a' -> nq b b' -> nless a b = nless a' b'.
Proof.
  destruct a, a'; cbn [nq]; try tauto; intro E; destruct b, b'; cbn [nq]; try tauto; intro F; cbn [nless];
    rewrite ?(Qcompare_comp _ _ E _ _ F); congruence.
Qed.
Lemma neq_nq a a' b b' : nq a a' -> nq b b' -> neq a b = neq a' b'.
Proof.
  destruct a, a'; cbn [nq]; try tauto; intro E; destruct b, b'; cbn [nq]; try tauto; intro F; cbn [neq];
    rewrite ?(Qcompare_comp _ _ E _ _ F); congruence.
Qed.
Lemma fpless_pq a a' b b' : pq a a' -> pq b b' -> fpless a b = fpless a' b'.
Proof.
  intros [A1 A2] [B1 B2]. unfold fpless, ncompare.
  now rewrite (nless_nq _ _ _ _ A1 B1), (nless_nq _ _ _ _ B1 A1), (nless_nq _ _ _ _ A2 B2), (nless_nq _ _ _ _ B2 A2).
Qed.
Lemma test_nq k a a' b b' : nq a a' -> nq b b' ->
  CrossModel.endpoint_test nless k a b = CrossModel.endpoint_test nless k a' b'.
Proof. intros A B. destruct k; cbn; rewrite ?(nless_nq _ _ _ _ A B), ?(nless_nq _ _ _ _ B A); reflexivity. Qed.
Lemma line_test_nq l n n' d d' : nq n n' -> nq d d' -> fline_test l n d = fline_test l n' d'.
Proof. intros N D. unfold fline_test. now rewrite (test_nq _ _ _ _ _ (nq_refl (Fin 0)) N), (test_nq _ _ _ _ _ N D). Qed.

(** ** Signs of results *)
Section Symmetry.
  Variable f : format.
  Hypothesis Hp : 1 <= prec f.
  Lemma to_num_comp q r : (q == r)%Q -> to_num f q = to_num f r.
  Proof.
    intro E. pose proof (round_eq f Hp q r E) as R. unfold to_num.
    rewrite (Qred_complete _ _ R).
    destruct (Qlt_le_dec (round f q) (2 ^ emax f)), (Qlt_le_dec (round f r) (2 ^ emax f)); try (exfalso; lra); [|reflexivity].
    destruct (Qlt_le_dec (- 2 ^ emax f) (round f q)), (Qlt_le_dec (- 2 ^ emax f) (round f r)); try (exfalso; lra); reflexivity.
  Qed.
  Lemma to_num_neg q : nq (to_num f (- q)) (neg_num (to_num f q)).
  Proof.
    pose proof (round_opp f Hp q) as R. unfold to_num. pose proof (two_pos (emax f)).
    destruct (Qlt_le_dec (round f (- q)) (2 ^ emax f)), (Qlt_le_dec (round f q) (2 ^ emax f)); 
      try destruct (Qlt_le_dec (- 2 ^ emax f) (round f (- q))); try destruct (Qlt_le_dec (- 2 ^ emax f) (round f q));
      cbn [neg_num nq negb]; try reflexivity; try (exfalso; lra).
    rewrite !Qred_correct. exact R.
  Qed.
  Lemma fadd_nq a a' b b' : nq a a' -> nq b b' -> nq (fadd f a b) (fadd f a' b').
  Proof.
    destruct a, a'; cbn [nq]; try tauto; intro E; destruct b, b'; cbn [nq]; try tauto; intro F; cbn [fadd]; subst; try apply nq_refl.
    rewrite (to_num_comp (q + q1) (q0 + q2)); [apply nq_refl|]. now rewrite E, F.
  Qed.
  Lemma fsub_nq a a' b b' : nq a a' -> nq b b' -> nq (fsub f a b) (fsub f a' b').
  Proof. intros. apply fadd_nq; auto using nq_neg. Qed.
  Lemma fmul_nq a a' b b' : nq a a' -> nq b b' -> nq (fmul f a b) (fmul f a' b').
  Proof.
    destruct a, a'; cbn [nq]; try tauto; intro E; destruct b, b'; cbn [nq]; try tauto; intro F; cbn [fmul]; subst; try apply nq_refl.
    - rewrite (to_num_comp (q * q1) (q0 * q2)); [apply nq_refl|]. now rewrite E, F.
    - rewrite (Qcompare_comp _ _ E _ _ (Qeq_refl 0)). apply nq_refl.
    - rewrite (Qcompare_comp _ _ F _ _ (Qeq_refl 0)). apply nq_refl.
  Qed.
  Lemma fsub_swap a b : nq (fsub f a b) (neg_num (fsub f b a)).
  Proof.
    unfold fsub. destruct a as [x|[]|], b as [y|[]|]; cbn; auto.
    rewrite (to_num_comp (x + - y) (- (y + - x))) by ring. apply to_num_neg.
  Qed.
  Lemma fsub_neg a b : nq (fsub f (neg_num a) (neg_num b)) (neg_num (fsub f a b)).
  Proof.
    unfold fsub. destruct a as [x|[]|], b as [y|[]|]; cbn; auto.
    rewrite (to_num_comp (- x + - - y) (- (x + - y))) by ring. apply to_num_neg.
  Qed.
  Lemma fmul_comm a b : nq (fmul f a b) (fmul f b a).
  Proof.
    destruct a as [x|n|], b as [y|m|]; cbn [fmul]; try exact I; try apply nq_refl.
    - rewrite (to_num_comp (x * y) (y * x)) by ring. apply nq_refl.
    - cbn. apply xorb_comm.
  Qed.
  Lemma fmul_neg a b : nq (fmul f (neg_num a) b) (neg_num (fmul f a b)).
  Proof.
    destruct a as [x|n|], b as [y|m|]; cbn [fmul neg_num]; try exact I.
    - rewrite (to_num_comp (- x * y) (- (x * y))) by ring. apply to_num_neg.
    - destruct (Qcompare_spec (- x) 0), (Qcompare_spec x 0); try (exfalso; lra); cbn; try rewrite negb_involutive; reflexivity.
    - destruct (Qcompare y 0); cbn; reflexivity.
    - cbn. destruct n, m; reflexivity.
  Qed.

  Lemma farea_swap p q : nq (farea f p q) (neg_num (farea f q p)).
  Proof.
    unfold farea. eapply nq_trans; [apply fsub_swap|]. apply nq_neg. apply fsub_nq; apply fmul_comm.
  Qed.
  Lemma farea_nq p p' q q' : pq p p' -> pq q q' -> nq (farea f p q) (farea f p' q').
  Proof. intros [A B] [C D]. unfold farea. apply fsub_nq; now apply fmul_nq. Qed.
  Lemma farea_neg p q : nq (farea f (neg_pt p) q) (neg_num (farea f p q)).
  Proof.
    unfold farea. cbn [neg_pt fx fy]. eapply nq_trans; [|apply fsub_neg]. apply fsub_nq; apply fmul_neg.
  Qed.
  Lemma fpsub_swap a b : pq (fpsub f a b) (neg_pt (fpsub f b a)).
  Proof. split; apply fsub_swap. Qed.

  Lemma pq_refl p : pq p p.
  Proof. split; apply nq_refl. Qed.
  (** The test does not depend on which line comes first. *)
  Lemma cross_test_swap l r T T' la la' ra ra' : nq T' (neg_num T) -> nq la' (neg_num ra) -> nq ra' (neg_num la) ->
    nless T (Fin 0) = true \/ nless (Fin 0) T = true -> fcross_test r l T' la' ra' = fcross_test l r T la ra.
  Proof.
    intros HT HL HR N. unfold fcross_test. rewrite (nless_nq _ _ _ _ HT (nq_refl (Fin 0))).
    assert (S : nless (neg_num T) (Fin 0) = negb (nless T (Fin 0))).
    { destruct T as [t|[]|]; cbn [nless neg_num negb] in *; try (destruct N; discriminate); auto.
      destruct (Qcompare_spec (- t) 0), (Qcompare_spec t 0), (Qcompare_spec 0 t); try reflexivity; try (exfalso; lra);
        destruct N as [N|N]; discriminate N. }
    rewrite S. assert (X : forall a b, nq a (neg_num b) -> nq (neg_num a) b).
    { intros a b Q. apply nq_trans with (neg_num (neg_num b)); [now apply nq_neg|apply neg_neg]. }
    destruct (nless T (Fin 0)); cbn [negb].
    - rewrite (line_test_nq r _ _ _ _ HL HT), (line_test_nq l _ _ _ _ HR HT). apply andb_comm.
    - rewrite (line_test_nq r _ _ _ _ (X _ _ HL) (X _ _ HT)), (line_test_nq l _ _ _ _ (X _ _ HR) (X _ _ HT)). apply andb_comm.
  Qed.
  Lemma nonzero_side T : T <> NaN -> neq T (Fin 0) = false -> nless T (Fin 0) = true \/ nless (Fin 0) T = true.
  Proof.
    destruct T as [t|[]|]; cbn [nless neq negb]; auto; try (intros X; now contradiction X). intros _.
    destruct (Qcompare_spec t 0), (Qcompare_spec 0 t); auto; try discriminate; exfalso; lra.
  Qed.
  Lemma scalar_swap l r : farea f (flvec (fk_line r)) (flvec (fk_line l)) <> NaN ->
    fintersect_scalar f l r = [] -> fintersect_scalar f r l = [].
  Proof.
    intros N. unfold fintersect_scalar.
    pose proof (farea_swap (flvec (fk_line l)) (flvec (fk_line r))) as S.
    assert (Z : neq (farea f (flvec (fk_line l)) (flvec (fk_line r))) (Fin 0) = neq (farea f (flvec (fk_line r)) (flvec (fk_line l))) (Fin 0)).
    { rewrite (neq_nq _ _ _ _ S (nq_refl (Fin 0))). destruct (farea f (flvec (fk_line r)) (flvec (fk_line l))) as [t|[]|]; cbn [neq neg_num]; auto.
      destruct (Qcompare_spec (- t) 0), (Qcompare_spec t 0); auto; exfalso; lra. }
    rewrite Z. clear Z. destruct (neq (farea f (flvec (fk_line r)) (flvec (fk_line l))) (Fin 0)) eqn:E; [reflexivity|].
    assert (A : forall w, nq (farea f (fpsub f (flbegin (fk_line r)) (flbegin (fk_line l))) w)
                             (neg_num (farea f (fpsub f (flbegin (fk_line l)) (flbegin (fk_line r))) w))).
    { intros w. eapply nq_trans; [|apply farea_neg]. apply farea_nq; [apply fpsub_swap|apply pq_refl]. }
    rewrite (cross_test_swap l r _ _ _ _ _ _ S (A _) (A _) (nonzero_side _ N E)).
    destruct (fcross_test _ _ _ _ _); [discriminate|reflexivity].
  Qed.
End Symmetry.

(** ** Lines through points of a grid *)
Definition isat (s m : Z) (n : num) : Prop := exists q, n = Fin q /\ (q == inject_Z m * 2 ^ s)%Q.
Definition pat (s : Z) (p : pt) (g : fpt) : Prop := isat s (px p) (fx g) /\ isat s (py p) (fy g).
Definition rl (s : Z) (l : kline) (g : fkline) : Prop :=
  pat s (lbegin (k_line l)) (flbegin (fk_line g)) /\ pat s (lvec (k_line l)) (flvec (fk_line g)) /\
  k_begin l = fk_begin g /\ k_end l = fk_end g.

Lemma isat_nq s m n : isat s m n -> nq n (Fin (inject_Z m * 2 ^ s)).
Proof. intros (q & -> & E). exact E. Qed.
Lemma pat_grid s p : pat s p (grid s p).
Proof. split; eexists; (split; [reflexivity|reflexivity]). Qed.
Lemma pat_pq s p g : pat s p g -> pq g (grid s p).
Proof. intros [A B]. split; now apply isat_nq. Qed.
Lemma isat_zero s : isat s 0 (Fin 0).
Proof. exists 0%Q. split; [reflexivity|]. change (inject_Z 0) with 0%Q. ring. Qed.
Lemma pat_zero s : pat s (P 0 0) fzero.
Proof. split; apply isat_zero. Qed.
Lemma nless_isat s a b x y : isat s a x -> isat s b y -> nless x y = (a <? b).
Proof. intros A B. rewrite (nless_nq _ _ _ _ (isat_nq _ _ _ A) (isat_nq _ _ _ B)). apply nless_grid. Qed.
Lemma neq_isat s a x : isat s a x -> neq x (Fin 0) = (a =? 0).
Proof.
  intros A. rewrite (neq_nq _ _ _ _ (isat_nq _ _ _ A) (isat_nq _ _ _ (isat_zero s))). apply neq_grid.
Qed.
Lemma fpless_pat s a b x y : pat s a x -> pat s b y -> fpless x y = pless a b.
Proof. intros A B. rewrite (fpless_pq _ _ _ _ (pat_pq _ _ _ A) (pat_pq _ _ _ B)). apply fpless_grid. Qed.
Lemma isat_neg s a x : isat s a x -> isat s (- a) (neg_num x).
Proof. intros (q & -> & E). exists (- q)%Q. split; [reflexivity|]. rewrite E, inject_Z_opp. ring. Qed.
Lemma test_isat s k a b x y : isat s a x -> isat s b y ->
  CrossModel.endpoint_test nless k x y = CrossModel.endpoint_test Z.ltb k a b.
Proof. intros A B. destruct k; cbn; rewrite ?(nless_isat _ _ _ _ _ A B), ?(nless_isat _ _ _ _ _ B A); reflexivity. Qed.
Lemma line_test_isat e s l g n d x y : rl e l g -> isat s n x -> isat s d y -> fline_test g x y = mline_test l n d.
Proof.
  intros (_ & _ & K1 & K2) N D. unfold fline_test, mline_test. rewrite K1, K2.
  now rewrite (test_isat _ _ _ _ _ _ (isat_zero s) N), (test_isat _ _ _ _ _ _ N D).
Qed.
Lemma cross_test_isat e s l r g h ta la ra T A B : rl e l g -> rl e r h -> isat s ta T -> isat s la A -> isat s ra B ->
  fcross_test g h T A B = CrossModel.cross_test (toq l) (toq r) (qz ta) (qz la) (qz ra).
Proof.
  intros L R HT HA HB. unfold fcross_test, CrossModel.cross_test. change 0%Qc with (qz 0). rewrite qlt_qz.
  rewrite <- !qz_opp, !line_test_qz. rewrite (nless_isat _ _ _ _ _ HT (isat_zero s)).
  destruct (ta <? 0).
  - rewrite (line_test_isat _ _ _ _ _ _ _ _ L (isat_neg _ _ _ HA) (isat_neg _ _ _ HT)).
    now rewrite (line_test_isat _ _ _ _ _ _ _ _ R (isat_neg _ _ _ HB) (isat_neg _ _ _ HT)).
  - now rewrite (line_test_isat _ _ _ _ _ _ _ _ L HA HT), (line_test_isat _ _ _ _ _ _ _ _ R HB HT).
Qed.

Section Grid.
  Variable f : format.
  Variable e : Z.
  Hypothesis Hp : 1 <= prec f.
  Hypothesis He : emin f <= e.
  Hypothesis He2 : emin f <= e + e.
  Hypothesis Hm : prec f + e < emax f.
  Hypothesis Hm2 : prec f + (e + e) < emax f.
  Variables x0 y0 W H : Z.
  Hypothesis HW : W <= 2 ^ prec f.
  Hypothesis HH : H <= 2 ^ prec f.
  Hypothesis HA : 2 * (W * H) <= 2 ^ prec f.
  Definition boxed (q : pt) : Prop := in_box x0 y0 W H q /\ Z.abs (px q) <= 2 ^ prec f /\ Z.abs (py q) <= 2 ^ prec f.
  Definition brief (v : pt) : Prop := Z.abs (px v) <= W /\ Z.abs (py v) <= H.

  Lemma brief_sub a b : boxed a -> boxed b -> brief (psub a b).
  Proof. unfold boxed, in_box, brief. cbn [psub px py]. lia. Qed.
  Lemma sub_pat a b x y : boxed a -> boxed b -> pat e a x -> pat e b y -> pat e (psub a b) (fpsub f x y).
  Proof.
    intros A B [X1 X2] [Y1 Y2]. destruct (brief_sub a b A B) as [S1 S2]. cbn [psub px py] in *.
    split; cbn [fpsub fx fy]; apply fsub_at; auto; lia.
  Qed.
  Lemma area_isat u v x y : brief u -> brief v -> pat e u x -> pat e v y -> isat (e + e) (area u v) (farea f x y).
  Proof.
    intros [U1 U2] [V1 V2] [X1 X2] [Y1 Y2].
    pose proof (abs_mul_le _ _ _ _ U1 V2) as M1. pose proof (abs_mul_le _ _ _ _ U2 V1) as M2.
    unfold farea, area. apply fsub_at; auto; [apply fmul_at; auto; lia | apply fmul_at; auto; lia | lia].
  Qed.
  Lemma make_rl a b x y ka kb : boxed a -> boxed b -> pat e a x -> pat e b y ->
    rl e (K (make_line a b) ka kb) (FK (FL x (fpsub f y x)) ka kb).
  Proof. intros A B X Y. repeat split; try apply X; now apply sub_pat. Qed.
  Lemma lend_pat a b g ka kb : boxed a -> boxed b -> rl e (K (make_line a b) ka kb) g -> pat e b (flend f (fk_line g)).
  Proof.
    intros A B ([X1 X2] & [Y1 Y2] & _). destruct B as (_ & B1 & B2). cbn [k_line make_line lbegin lvec psub px py] in *.
    unfold flend, fpadd. split; cbn [fx fy].
    - replace (px b) with (px a + (px b - px a)) by lia. apply fadd_at; auto. replace (px a + (px b - px a)) with (px b) by lia. exact B1.
    - replace (py b) with (py a + (py b - py a)) by lia. apply fadd_at; auto. replace (py a + (py b - py a)) with (py b) by lia. exact B2.
  Qed.

  Section Lines.
    Context (a b c d : pt) (ka kb kc kd : VecModel.endpoint) (g h : fkline).
    Context (A : boxed a) (B : boxed b) (C : boxed c) (D : boxed d).
    Notation l := (K (make_line a b) ka kb).
    Notation r := (K (make_line c d) kc kd).
    Context (L : rl e l g) (R : rl e r h).

    Lemma get_pat u v ku kv k s : boxed u -> boxed v -> rl e (K (make_line u v) ku kv) k ->
      exists q kq, CrossModel.get_point (toq (K (make_line u v) ku kv)) s = (vz q, kq) /\ boxed q /\
        pat e q (fst (fget_point f k s)) /\ snd (fget_point f k s) = kq.
    Proof.
      intros U V Rk. unfold fget_point, CrossModel.get_point.
      assert (E : CrossModel.vless (map (fun _ => 0%Qc) (VecModel.lvec (toq (K (make_line u v) ku kv))))
        (VecModel.lvec (toq (K (make_line u v) ku kv))) = pless (P 0 0) (psub v u)).
      { rewrite <- vless_vz. reflexivity. }
      rewrite E. pose proof (lend_pat _ _ _ _ _ U V Rk) as Le. destruct Rk as (Rb & Rv & K1 & K2).
      rewrite (fpless_pat _ _ _ _ _ (pat_zero e) Rv). cbn [k_line make_line lbegin lvec k_begin k_end] in *.
      destruct (Bool.eqb (pless (P 0 0) (psub v u)) s); cbn [fst snd].
      - exists u, ku. auto.
      - exists v, kv. split; [|auto].
        unfold VecModel.lend, toq. cbn [VecModel.lbegin VecModel.lvec k_line k_begin k_end make_line lbegin lvec VecModel.kend].
        rewrite vz_add. unfold padd, psub. cbn [px py]. replace (px u + (px v - px u)) with (px v) by lia. replace (py u + (py v - py u)) with (py v) by lia.
        destruct v. reflexivity.
    Qed.
    Lemma max_pat q k x q' k' y s : boxed q -> boxed q' -> pat e q x -> pat e q' y ->
      exists m km, CrossModel.max_endpoint (vz q, k) (vz q', k') s = (vz m, km) /\ boxed m /\
        pat e m (fst (fmax_endpoint (x, k) (y, k') s)) /\ snd (fmax_endpoint (x, k) (y, k') s) = km.
    Proof.
      intros Q Q' X Y. unfold CrossModel.max_endpoint, fmax_endpoint, CrossModel.veq. cbn [fst snd]. rewrite !vless_vz.
      rewrite (fpless_pat _ _ _ _ _ X Y), (fpless_pat _ _ _ _ _ Y X).
      repeat match goal with |- context [if ?z then _ else _] => destruct z end; eexists _, _; (split; [reflexivity|]); auto.
    Qed.

    Lemma common_rl : (CrossModel.common_line (toq l) (toq r) = [] /\ fcommon_line f g h = []) \/
      exists p q kp kq m, CrossModel.common_line (toq l) (toq r) = [toq (K (make_line p q) kp kq)] /\
        fcommon_line f g h = [m] /\ boxed p /\ boxed q /\ rl e (K (make_line p q) kp kq) m.
    Proof.
      unfold CrossModel.common_line, fcommon_line.
      destruct (get_pat a b ka kb g true A B L) as (q1 & k1 & F1 & B1 & P1 & E1).
      destruct (get_pat c d kc kd h true C D R) as (q2 & k2 & F2 & B2 & P2 & E2).
      destruct (get_pat a b ka kb g false A B L) as (q3 & k3 & F3 & B3 & P3 & E3).
      destruct (get_pat c d kc kd h false C D R) as (q4 & k4 & F4 & B4 & P4 & E4).
      destruct (fget_point f g true) as [x1 j1], (fget_point f h true) as [x2 j2],
        (fget_point f g false) as [x3 j3], (fget_point f h false) as [x4 j4]. cbn [fst snd] in *. subst j1 j2 j3 j4.
      rewrite F1, F2, F3, F4.
      destruct (max_pat q1 k1 x1 q2 k2 x2 true B1 B2 P1 P2) as (p & kp & G1 & Bp & Pp & Ep).
      destruct (max_pat q3 k3 x3 q4 k4 x4 false B3 B4 P3 P4) as (q & kq & G2 & Bq & Pq & Eq).
      rewrite G1, G2.
      destruct (fmax_endpoint (x1, k1) (x2, k2) true) as [y1 j1], (fmax_endpoint (x3, k3) (x4, k4) false) as [y2 j2].
      cbn [fst snd] in *. subst j1 j2.
      assert (T : CrossModel.endpoint_test CrossModel.vless kp (vz p) (vz q) = CrossModel.endpoint_test fpless kp y1 y2).
      { destruct kp; unfold CrossModel.endpoint_test; rewrite ?vless_vz, ?(fpless_pat _ _ _ _ _ Pp Pq), ?(fpless_pat _ _ _ _ _ Pq Pp); reflexivity. }
      rewrite T. destruct (CrossModel.endpoint_test fpless kp y1 y2); [right|now left].
      unfold CrossModel.make_any_line, fmake_any_line. destruct (Nat.ltb _ _).
      - exists q, p, kq, kp, (FK (FL y2 (fpsub f y1 y2)) kq kp). split; [|split; [reflexivity|]].
        + rewrite vz_sub. reflexivity.
        + split; [exact Bq|]. split; [exact Bp|]. now apply make_rl.
      - exists p, q, kp, kq, (FK (FL y1 (fpsub f y2 y1)) kp kq). split; [|split; [reflexivity|]].
        + rewrite vz_sub. reflexivity.
        + split; [exact Bp|]. split; [exact Bq|]. now apply make_rl.
    Qed.

    Lemma areas_isat : 
      isat (e + e) (area (psub d c) (psub b a)) (farea f (flvec (fk_line h)) (flvec (fk_line g))) /\
      isat (e + e) (area (psub a c) (psub d c)) (farea f (fpsub f (flbegin (fk_line g)) (flbegin (fk_line h))) (flvec (fk_line h))) /\
      isat (e + e) (area (psub a c) (psub b a)) (farea f (fpsub f (flbegin (fk_line g)) (flbegin (fk_line h))) (flvec (fk_line g))).
    Proof.
      destruct L as (L1 & L2 & _), R as (R1 & R2 & _). cbn [k_line make_line lbegin lvec] in *.
      repeat split; apply area_isat; auto using brief_sub; now apply sub_pat.
    Qed.

    Lemma intersect_rl :
      (CrossModel.intersect (toq l) (toq r) = [] /\ fintersect f g h = []) \/
      (area (psub d c) (psub b a) <> 0 /\ CrossModel.intersect (toq l) (toq r) <> [] /\ fintersect f g h <> []) \/
      exists p q kp kq m, CrossModel.intersect (toq l) (toq r) = [toq (K (make_line p q) kp kq)] /\
        fintersect f g h = [m] /\ boxed p /\ boxed q /\ rl e (K (make_line p q) kp kq) m.
    Proof.
      destruct areas_isat as (T1 & T2 & T3). unfold CrossModel.intersect, fintersect.
      change (VecModel.lvec (toq r)) with (vz (psub d c)). change (VecModel.lvec (toq l)) with (vz (psub b a)).
      change (VecModel.lbegin (toq r)) with (vz c). change (VecModel.lbegin (toq l)) with (vz a).
      rewrite (neq_isat _ _ _ T1), (neq_isat _ _ _ T2). rewrite vz_sub, !area_vz, !is0_qz.
      rewrite (cross_test_isat e (e + e) l r g h _ _ _ _ _ _ L R T1 T2 T3).
      destruct (Z.eqb_spec (area (psub d c) (psub b a)) 0) as [Z0|Z0].
      - destruct (area (psub a c) (psub d c) =? 0); [|now left]. cbn [negb].
        destruct common_rl as [X|X]; [now left|now right; right].
      - destruct (CrossModel.cross_test _ _ _ _ _); [right; left|now left]. repeat split; [exact Z0|discriminate|discriminate].
    Qed.
    Lemma crosses_rl : fcrosses f g h = CrossModel.crosses_lines (toq l) (toq r).
    Proof.
      unfold fcrosses, CrossModel.crosses_lines.
      destruct intersect_rl as [[-> ->]|[(_ & N1 & N2)|(p & q & kp & kq & m & -> & -> & _)]]; auto.
      destruct (CrossModel.intersect (toq l) (toq r)) as [|m1 t1]; [now contradiction N1|]. destruct (fintersect f g h); [now contradiction N2|reflexivity].
    Qed.

    (** The scalar is the exact ratio, rounded once. *)
    Lemma fdiv_isat s n m x y : isat s n x -> isat s m y -> m <> 0 -> fdiv f x y = to_num f (inject_Z n / inject_Z m).
    Proof.
      intros (q & -> & E) (t & -> & F) N. cbn [fdiv].
      assert (T : ~ (t == 0)%Q).
      { rewrite F. intro Z0. apply Qmult_integral in Z0 as [Z0|Z0].
        - apply N. now apply (proj1 (inject_Z_injective m 0)).
        - pose proof (two_pos s). lra. }
      assert (M : ~ (inject_Z m == 0)%Q) by (intro Z0; apply N; now apply (proj1 (inject_Z_injective m 0))).
      assert (S : ~ (2 ^ s == 0)%Q) by (pose proof (two_pos s); lra).
      assert (G : to_num f (q / t) = to_num f (inject_Z n / inject_Z m)).
      { apply to_num_comp; [exact Hp|]. rewrite E, F. field. auto. }
      destruct (Qcompare_spec t 0); auto; contradiction.
    Qed.
    Lemma scalar_rl : (CrossModel.intersect_scalar (toq l) (toq r) = [] /\ fintersect_scalar f g h = []) \/
      exists n m, m <> 0 /\ CrossModel.intersect_scalar (toq l) (toq r) = [(qz n / qz m)%Qc] /\
        fintersect_scalar f g h = [to_num f (inject_Z n / inject_Z m)].
    Proof.
      destruct areas_isat as (T1 & T2 & T3). unfold CrossModel.intersect_scalar, fintersect_scalar.
      change (VecModel.lvec (toq r)) with (vz (psub d c)). change (VecModel.lvec (toq l)) with (vz (psub b a)).
      change (VecModel.lbegin (toq r)) with (vz c). change (VecModel.lbegin (toq l)) with (vz a).
      rewrite (neq_isat _ _ _ T1). rewrite vz_sub, !area_vz, !is0_qz.
      rewrite (cross_test_isat e (e + e) l r g h _ _ _ _ _ _ L R T1 T2 T3).
      destruct (Z.eqb_spec (area (psub d c) (psub b a)) 0) as [Z0|Z0]; [now left|].
      destruct (CrossModel.cross_test _ _ _ _ _); [right|now left]. eexists _, _. split; [exact Z0|]. split; [reflexivity|].
      cbn [negb]. f_equal. now apply fdiv_isat with (e + e).
    Qed.
  End Lines.
End Grid.

(** The result of rounding is a number of the format. *)
Lemma round_representable f q : 1 <= prec f -> representable f (round f q).
Proof.
  intro Hp. assert (Pos : forall q, (0 < q)%Q -> representable f (round_pos f q)).
  { clear q. intros q H. set (b := last_bit f q).
    assert (B : (q <= inject_Z (2 ^ prec f) * 2 ^ b)%Q).
    { destruct (magnitude_spec q H) as [_ M]. rewrite two_Z, <- two_plus by lia.
      apply Qlt_le_weak. eapply Qlt_le_trans; [exact M|]. apply two_le. unfold b, last_bit. lia. }
    pose proof (round_pos_le f q _ b H (Z.le_refl _) B) as U. pose proof (round_pos_nonneg f q H) as V.
    unfold round_pos in U, V |- *. fold b in U, V |- *. pose proof (two_pos b) as P. apply representable_int; [exact Hp| |unfold b, last_bit; lia].
    apply Qmult_le_r in U; [|exact P]. rewrite <- Zle_Qle in U.
    assert (0 <= inject_Z (nearest (q / 2 ^ b)))%Q as V'.
    { apply Qmult_le_r with (2 ^ b)%Q; [exact P|]. lra. }
    change 0%Q with (inject_Z 0) in V'. rewrite <- Zle_Qle in V'. lia. }
  destruct (Q_dec q 0) as [[Q0|Q0]|Q0].
  - rewrite (round_neg_Q _ _ Q0). destruct (Pos (- q)%Q) as (m & s & E & M & L); [lra|]. exists (- m), s.
    split; [|split; [lia|exact L]]. rewrite E, inject_Z_opp. ring.
  - rewrite (round_pos_Q _ _ Q0). now apply Pos.
  - rewrite (round_zero _ _ Q0). exists 0, (emin f). split; [change (inject_Z 0) with 0%Q; ring|]. split; [|lia].
    cbn. apply Z.pow_pos_nonneg; lia.
Qed.
