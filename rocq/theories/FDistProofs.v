(** Proofs about the distance of a point to a line over floating point numbers. *)
From Coq Require Import ZArith QArith Qpower Qabs List Bool Lia Lqa.
From Verif Require Import FGeoModel FGeoProofs GeoModel MGeoProofs FPolyModel FPolyProofs FCrossModel MCrossModel
  FLineModel FLineProofs FNearModel FNearProofs FDistModel.
From Verif Require VecModel.
Local Open Scope Z_scope.

Lemma sum_squares_le a b W H : Z.abs a <= W -> Z.abs b <= H -> a * a + b * b <= W * W + H * H.
Proof. intros A B. assert (a * a <= W * W) by nia. assert (b * b <= H * H) by nia. lia. Qed.

Definition zdot (p q : pt) : Z := px p * px q + py p * py q.
Lemma zdot_nonneg v : 0 <= zdot v v.
Proof. unfold zdot. pose proof (Z.square_nonneg (px v)). pose proof (Z.square_nonneg (py v)). lia. Qed.
Lemma zdot_pos v : v <> P 0 0 -> 0 < zdot v v.
Proof. intros N. unfold zdot. destruct v as [x y]. cbn. assert (x <> 0 \/ y <> 0) as [?|?] by (destruct (Z.eq_dec x 0), (Z.eq_dec y 0); subst; tauto || auto); nia. Qed.
Lemma sub_nz a b : a <> b -> psub b a <> P 0 0.
Proof. destruct a as [a1 a2], b as [b1 b2]. unfold psub. cbn. intros N E. injection E. intros. apply N. f_equal; lia. Qed.

Section Grid.
  Variable f : format.
  Variable e : Z.
  Hypothesis Hp : 2 <= prec f.
  Hypothesis He : emin f + 2 * prec f <= e.
  Hypothesis He2 : emin f + prec f <= e + e.
  Hypothesis Hm : prec f + e + 1 < emax f.
  Hypothesis Hm2 : prec f + (e + e) + 1 < emax f.
  Variables x0 y0 W H : Z.
  Hypothesis HW : W <= 2 ^ prec f.
  Hypothesis HH : H <= 2 ^ prec f.
  Hypothesis HS : W * W + H * H <= 2 ^ prec f.
  Let Hp1 : 1 <= prec f. Proof. lia. Qed.
  Let E1 : emin f <= e. Proof. lia. Qed.
  Let E2 : emin f <= e + e. Proof. lia. Qed.
  Let M1 : prec f + e < emax f. Proof. lia. Qed.
  Let M2 : prec f + (e + e) < emax f. Proof. lia. Qed.
  Let HA : 2 * (W * H) <= 2 ^ prec f. Proof. pose proof (Z.square_nonneg (W - H)). lia. Qed.
  Notation box := (boxed f x0 y0 W H).
  Notation short := (brief W H).
  Let u : Q := (2 ^ (- prec f))%Q.
  Lemma here : range f e e.
  Proof. unfold range. lia. Qed.

  Lemma dot_bound a b : short a -> short b -> Z.abs (zdot a b) <= 2 ^ prec f /\ Z.abs (px a * px b) <= 2 ^ prec f /\ Z.abs (py a * py b) <= 2 ^ prec f.
  Proof.
    intros [A1 A2] [B1 B2]. pose proof (abs_mul_le _ _ _ _ A1 B1). pose proof (abs_mul_le _ _ _ _ A2 B2). unfold zdot.
    assert (0 <= W * W) by apply Z.square_nonneg. assert (0 <= H * H) by apply Z.square_nonneg. lia.
  Qed.
  Lemma dot_isat a b x y : short a -> short b -> pat e a x -> pat e b y -> isat (e + e) (zdot a b) (fdot f x y).
  Proof.
    intros A B [X1 X2] [Y1 Y2]. destruct (dot_bound a b A B) as (D & D1 & D2). unfold fdot, zdot in *.
    apply fadd_at; auto; [|apply fmul_at; auto]. rewrite <- (Z.add_0_l (px a * px b)).
    apply fadd_at; auto; [apply isat_zero|apply fmul_at; auto].
  Qed.

  Definition S2 : Q := (2 ^ (e + e))%Q.
  Lemma S2_pos : (0 < S2)%Q. Proof. apply two_pos. Qed.
  Definition zroot (n : Z) : Q := root f (inject_Z n * S2)%Q.
  (** The norm of a vector: its square is nearly that of the length. *)
  Lemma norm_value v x : short v -> pat e v x -> exists r, fnorm f x = Fin r /\ (r == zroot (zdot v v))%Q.
  Proof.
    intros V X. destruct (dot_isat v v x x V V X X) as (q & Eq & Q1). fold S2 in Q1. unfold fnorm. rewrite Eq. cbn [fsqrt].
    pose proof (root_eq f e e here _ _ Q1) as RE. fold (zroot (zdot v v)) in RE. unfold root in RE at 1.
    destruct (Qcompare_spec q 0) as [C|C|C].
    - exists 0%Q. auto.
    - exfalso. assert (0 <= inject_Z (zdot v v))%Q by (change 0%Q with (inject_Z 0); rewrite <- Zle_Qle; apply zdot_nonneg).
      pose proof (Qmult_le_0_compat _ S2 H0 ltac:(pose proof S2_pos; lra)). lra.
    - eexists. split; [reflexivity|]. now rewrite Qred_correct.
  Qed.
  Lemma zroot_rel n : 0 <= n -> (inject_Z n * S2 <= zroot n * zroot n * ((1 + u) * (1 + u)) /\ zroot n * zroot n * ((1 - u) * (1 - u)) <= inject_Z n * S2)%Q.
  Proof.
    intros N. apply (root_rel f e e here). destruct (Z.eq_dec n 0) as [->|N0]; [left; change (inject_Z 0) with 0%Q; ring|right].
    replace (2 * e) with (e + e) by lia. assert (1 <= inject_Z n)%Q by (change 1%Q with (inject_Z 1); rewrite <- Zle_Qle; lia).
    pose proof S2_pos. setoid_replace S2 with (1 * S2)%Q at 1 by ring. apply Qmult_le_compat_r; lra.
  Qed.
  Lemma zroot_nonneg n : (0 <= zroot n)%Q.
  Proof. unfold zroot. apply root_nonneg. Qed.
  Lemma zroot_bounds n : 0 < n <= 2 ^ prec f -> (2 ^ (e - 1) <= zroot n /\ zroot n <= 2 ^ (e + prec f))%Q.
  Proof.
    intros [N0 N1]. destruct (zroot_rel n ltac:(lia)) as [R1 R2]. pose proof (zroot_nonneg n) as R0.
    destruct (u_range f e e here) as [U1 U2]. fold u in U1, U2. set (r := zroot n) in *.
    assert (L1 : (1 <= inject_Z n)%Q) by (change 1%Q with (inject_Z 1); rewrite <- Zle_Qle; lia).
    assert (L2 : (inject_Z n <= 2 ^ prec f)%Q) by (rewrite <- two_Z by lia; now rewrite <- Zle_Qle).
    pose proof (two_pos e) as PE. pose proof S2_pos as PS. rewrite (two_plus e e) in *. set (t := (2 ^ e)%Q) in *.
    assert (Lo : (t * t <= inject_Z n * (t * t))%Q) by nra.
    assert (Hi : (inject_Z n * (t * t) <= 2 ^ prec f * (t * t))%Q) by nra.
    split.
    - replace (e - 1) with (e + -1) by lia. rewrite two_plus. change (2 ^ (-1))%Q with (1 # 2). fold t.
      destruct (Qlt_le_dec r (t * (1 # 2))) as [B|B]; [exfalso|exact B].
      assert (K : ((1 + u) * (1 + u) <= 25 # 16)%Q) by nra. assert (r * r <= t * t * (1 # 4))%Q by nra.
      assert (r * r * ((1 + u) * (1 + u)) <= r * r * (25 # 16))%Q by nra. nra.
    - rewrite two_plus. fold t. assert (P4 : (4 <= 2 ^ prec f)%Q) by (change 4%Q with (2 ^ 2)%Q; apply two_le; lia).
      set (k := (2 ^ prec f)%Q) in *. destruct (Qlt_le_dec (t * k) r) as [B|B]; [exfalso|exact B].
      assert (K : (9 # 16 <= (1 - u) * (1 - u))%Q) by nra. assert (TK : (0 <= t * k)%Q) by nra. assert (t * k * (t * k) <= r * r)%Q by (clear - TK B; nra).
      assert (r * r * (9 # 16) <= r * r * ((1 - u) * (1 - u)))%Q by nra.
      assert (4 * (t * t * k) <= t * k * (t * k))%Q by (setoid_replace (t * k * (t * k))%Q with (k * (t * t * k))%Q by ring; apply Qmult_le_compat_r; nra).
      assert (0 < t * t * k)%Q by (apply Qmult_lt_0_compat; nra). lra.
  Qed.

  (** ** The quotient *)
  Definition zquot (A n : Z) : Q := round f (inject_Z (Z.abs A) * S2 / zroot n)%Q.
  Lemma quot_value A n x y : 0 < n <= 2 ^ prec f -> Z.abs A <= 2 ^ prec f -> isat (e + e) A x -> (exists r, y = Fin r /\ r == zroot n)%Q ->
    exists c, fdiv f (nabs x) y = Fin c /\ (c == zquot A n)%Q.
  Proof.
    intros N B (q & -> & Q1) (r & -> & R1). cbn [nabs fdiv]. destruct (zroot_bounds n N) as [L _].
    pose proof (two_pos (e - 1)) as P. assert (R0 : (0 < r)%Q) by lra.
    assert (QA : (Qabs q == inject_Z (Z.abs A) * S2)%Q).
    { rewrite Q1, Qabs_Qmult, (Qabs_pos S2) by (pose proof S2_pos; lra). reflexivity. }
    assert (E : (Qabs q / r == inject_Z (Z.abs A) * S2 / zroot n)%Q) by now rewrite QA, R1.
    assert (Fi : (Qabs (Qabs q / r) <= 2 ^ (emax f - 1))%Q).
    { assert (0 <= Qabs q / r)%Q by (apply Qle_shift_div_l; [exact R0|]; pose proof (Qabs_nonneg q); lra).
      rewrite Qabs_pos by assumption. apply Qle_shift_div_r; [exact R0|]. rewrite QA.
      assert (inject_Z (Z.abs A) <= 2 ^ prec f)%Q by (rewrite <- two_Z by lia; now rewrite <- Zle_Qle).
      apply Qle_trans with (2 ^ prec f * S2)%Q; [apply Qmult_le_compat_r; [assumption|pose proof S2_pos; lra]|].
      apply Qle_trans with (2 ^ (emax f - 1) * 2 ^ (e - 1))%Q.
      - unfold S2. rewrite <- !two_plus. apply two_le. lia.
      - rewrite !(Qmult_comm (2 ^ (emax f - 1))). apply Qmult_le_compat_r; [lra|pose proof (two_pos (emax f - 1)); lra]. }
    destruct (fin_round f e e here _ Fi) as (c & E3 & E4).
    exists c. split; [destruct (Qcompare_spec r 0); [lra|lra|exact E3]|]. rewrite E4. unfold zquot. now apply round_eq.
  Qed.
  Lemma zquot_rel A n : 0 < n <= 2 ^ prec f -> let c := zquot A n in
    (0 <= c /\ c * c * inject_Z n <= inject_Z (A * A) * S2 * (((1 + u) * (1 + u)) * ((1 + u) * (1 + u))) /\
     inject_Z (A * A) * S2 * (((1 - u) * (1 - u)) * ((1 - u) * (1 - u))) <= c * c * inject_Z n)%Q.
  Proof.
    intros N c. destruct (zroot_bounds n N) as [L1 L2]. destruct (zroot_rel n ltac:(lia)) as [R1 R2].
    destruct (u_range f e e here) as [U1 U2]. fold u in U1, U2. pose proof (two_pos (e - 1)) as P. pose proof S2_pos as PS.
    assert (EA : (inject_Z (A * A) == inject_Z (Z.abs A) * inject_Z (Z.abs A))%Q) by (rewrite <- inject_Z_mult; rewrite <- Z.abs_mul, Z.abs_eq by apply Z.square_nonneg; reflexivity).
    rewrite EA. unfold zquot in c. set (r := zroot n) in *. assert (R0 : (0 < r)%Q) by lra.
    set (m := inject_Z (Z.abs A)) in *. set (x := (m * S2 / r)%Q) in *.
    assert (M0 : (0 <= m)%Q) by (unfold m; change 0%Q with (inject_Z 0); rewrite <- Zle_Qle; lia).
    assert (X : (x * r == m * S2)%Q) by (unfold x; field; lra).
    assert (X0 : (0 <= x)%Q) by (unfold x; apply Qle_shift_div_l; nra).
    assert (G : (x == 0 \/ 2 ^ (emin f + prec f) <= x)%Q).
    { destruct (Z.eq_dec A 0) as [->|A0]; [left; unfold x, m; change (inject_Z (Z.abs 0)) with 0%Q; field; lra|right].
      unfold x. apply Qle_shift_div_l; [exact R0|].
      assert (1 <= m)%Q by (unfold m; change 1%Q with (inject_Z 1); rewrite <- Zle_Qle; lia).
      apply Qle_trans with (2 ^ (emin f + prec f) * 2 ^ (e + prec f))%Q.
      - rewrite !(Qmult_comm (2 ^ (emin f + prec f))). apply Qmult_le_compat_r; [exact L2|pose proof (two_pos (emin f + prec f)); lra].
      - rewrite <- two_plus. apply Qle_trans with (1 * S2)%Q; [rewrite Qmult_1_l; unfold S2; apply two_le; lia|apply Qmult_le_compat_r; lra]. }
    destruct (round_rel f e e here x X0 G) as [C1 C2]. fold u in C1, C2. fold c in C1, C2.
    assert (C0 : (0 <= c)%Q) by nra. split; [exact C0|].
    assert (W1 : (c * c <= x * x * ((1 + u) * (1 + u)))%Q) by (setoid_replace (x * x * ((1 + u) * (1 + u)))%Q with ((x * (1 + u)) * (x * (1 + u)))%Q by ring; nra).
    assert (W2 : (x * x * ((1 - u) * (1 - u)) <= c * c)%Q).
    { setoid_replace (x * x * ((1 - u) * (1 - u)))%Q with ((x * (1 - u)) * (x * (1 - u)))%Q by ring. assert (0 <= x * (1 - u))%Q by nra. nra. }
    set (lo := ((1 - u) * (1 - u))%Q) in *. set (hi := ((1 + u) * (1 + u))%Q) in *.
    assert (Lo0 : (0 <= lo)%Q) by (unfold lo; nra). assert (Hi0 : (0 <= hi)%Q) by (unfold hi; nra).
    assert (XX : (x * x * (r * r) == m * m * S2 * S2)%Q) by (setoid_replace (x * x * (r * r))%Q with ((x * r) * (x * r))%Q by ring; rewrite X; ring).
    set (k := inject_Z n) in *. clearbody lo hi k c x r m. clear - W1 W2 R1 R2 XX PS Lo0 Hi0 M0 C0 R0 X0. set (s := S2) in *. clearbody s.
    split.
    - apply (Qmult_le_r _ _ s PS). apply Qle_trans with (c * c * (r * r * hi))%Q.
      { setoid_replace (c * c * k * s)%Q with (k * s * (c * c))%Q by ring. rewrite (Qmult_comm (c * c)). apply Qmult_le_compat_r; [exact R1|nra]. }
      setoid_replace (m * m * s * (hi * hi) * s)%Q with (m * m * s * s * (hi * hi))%Q by ring. rewrite <- XX.
      setoid_replace (x * x * (r * r) * (hi * hi))%Q with (x * x * hi * (r * r * hi))%Q by ring. apply Qmult_le_compat_r; [exact W1|nra].
    - apply (Qmult_le_r _ _ s PS). apply Qle_trans with (c * c * (r * r * lo))%Q.
      { setoid_replace (m * m * s * (lo * lo) * s)%Q with (m * m * s * s * (lo * lo))%Q by ring. rewrite <- XX.
        setoid_replace (x * x * (r * r) * (lo * lo))%Q with (x * x * lo * (r * r * lo))%Q by ring. apply Qmult_le_compat_r; [exact W2|nra]. }
      setoid_replace (c * c * k * s)%Q with (k * s * (c * c))%Q by ring. rewrite (Qmult_comm (c * c)). apply Qmult_le_compat_r; [exact R2|nra].
  Qed.

  (** ** The distance *)
  (** The number computed for a point and a line, by the case. *)
  Definition pick (p a b : pt) (ka kb : VecModel.endpoint) : Q :=
    let v := psub b a in
    if negb (VecModel.is_free ka) && (zdot (psub p a) v <? 0) then zroot (zdot (psub p a) (psub p a))
    else if negb (VecModel.is_free kb) && (0 <? zdot (psub p b) v) then zroot (zdot (psub p b) (psub p b))
    else zquot (area (psub p a) v) (zdot v v).
  Lemma area_bound a b : short a -> short b -> Z.abs (area a b) <= 2 ^ prec f.
  Proof.
    intros [A1 A2] [B1 B2]. pose proof (abs_mul_le _ _ _ _ A1 B2). pose proof (abs_mul_le _ _ _ _ A2 B1). unfold area. lia.
  Qed.
  Lemma box_sub a b x y : box a -> box b -> pat e a x -> pat e b y -> pat e (psub a b) (fpsub f x y).
  Proof. apply (sub_pat f e Hp1 E1 M1 x0 y0 W H HW HH). Qed.
  Lemma box_brief a b : box a -> box b -> short (psub a b).
  Proof. apply (brief_sub f Hp1 x0 y0 W H). Qed.
  Section Line.
    Context (p a b : pt) (ka kb : VecModel.endpoint) (x : fpt) (g : fkline).
    Context (Bp : box p) (Ba : box a) (Bb : box b) (Xp : pat e p x) (L : rl e (K (make_line a b) ka kb) g).
    Lemma end_sub : pat e (psub p b) (fpsub f x (flend f (fk_line g))).
    Proof.
      apply box_sub; try assumption. exact (lend_pat f e Hp1 E1 M1 x0 y0 W H a b g ka kb Ba Bb L).
    Qed.
    Lemma tests : (negb (VecModel.is_free (fk_begin g)) && nless (fdot f (fpsub f x (flbegin (fk_line g))) (flvec (fk_line g))) (Fin 0) =
        negb (VecModel.is_free ka) && (zdot (psub p a) (psub b a) <? 0)) /\
      (negb (VecModel.is_free (fk_end g)) && nless (Fin 0) (fdot f (fpsub f x (flend f (fk_line g))) (flvec (fk_line g))) =
        negb (VecModel.is_free kb) && (0 <? zdot (psub p b) (psub b a))).
    Proof.
      pose proof end_sub as Es. destruct L as (L1 & L2 & L3 & L4). cbn [k_line k_begin k_end make_line lbegin lvec] in *. rewrite <- L3, <- L4.
      split; f_equal.
      - refine (nless_isat _ _ _ _ _ _ (isat_zero _)). apply dot_isat; auto; [apply box_brief; assumption|apply box_brief; assumption|apply box_sub; assumption].
      - refine (nless_isat _ _ _ _ _ (isat_zero _) _). apply dot_isat; auto; apply box_brief; assumption.
    Qed.
    Lemma distance_value : a <> b -> exists d, fdistance_line f x g = Fin d /\ (d == pick p a b ka kb)%Q.
    Proof.
      intros N. unfold fdistance_line, pick. destruct tests as [T1 T2]. rewrite T1, T2. pose proof end_sub as Es.
      destruct L as (L1 & L2 & _). cbn [k_line make_line lbegin lvec] in *.
      assert (S0 : short (psub b a)) by (apply box_brief; assumption). assert (S1 : short (psub p a)) by (apply box_brief; assumption).
      assert (Xa : pat e (psub p a) (fpsub f x (flbegin (fk_line g)))) by (apply box_sub; assumption).
      destruct (negb (VecModel.is_free ka) && _); [now apply norm_value|].
      destruct (negb (VecModel.is_free kb) && _); [apply norm_value; [apply box_brief; assumption|exact Es]|].
      unfold farea_pl. apply quot_value.
      - split; [apply zdot_pos, sub_nz; exact N|]. destruct (dot_bound _ _ S0 S0) as (D & _). lia.
      - now apply area_bound.
      - apply area_isat with (W := W) (H := H); auto.
      - apply norm_value; assumption.
    Qed.
    (** A line through one point twice. *)
    Lemma degenerate_value : a = b -> fdistance_line f x g = NaN.
    Proof.
      intros Eab. unfold fdistance_line. destruct tests as [T1 T2]. rewrite T1, T2.
      assert (Z0 : psub b a = P 0 0) by (rewrite Eab; unfold psub; f_equal; lia). rewrite Z0.
      assert (D0 : forall q, zdot q (P 0 0) = 0) by (intros; unfold zdot; cbn; lia). rewrite !D0, !andb_false_r.
      destruct L as (L1 & L2 & _). cbn [k_line make_line lbegin lvec] in *. rewrite Z0 in L2.
      assert (B0 : short (P 0 0)) by (rewrite <- Z0; apply box_brief; assumption).
      assert (Ar : isat (e + e) (area (psub p a) (P 0 0)) (farea f (fpsub f x (flbegin (fk_line g))) (flvec (fk_line g)))).
      { apply area_isat with (W := W) (H := H); auto; [apply box_brief; assumption|apply box_sub; assumption]. }
      destruct (norm_value _ _ B0 L2) as (r & -> & R). unfold farea_pl. destruct Ar as (q & -> & Q1). cbn [nabs fdiv].
      assert (R0 : (r == 0)%Q).
      { rewrite R, D0. unfold zroot. rewrite root_zero; [reflexivity|]. change (inject_Z 0) with 0%Q. lra. }
      assert (Q0 : (Qabs q == 0)%Q).
      { rewrite Q1. replace (area (psub p a) (P 0 0)) with 0 by (unfold area; cbn; lia). change (inject_Z 0) with 0%Q. rewrite Qmult_0_l. reflexivity. }
      destruct (Qcompare_spec r 0); [|lra|lra]. destruct (Qcompare_spec (Qabs q) 0); [reflexivity|lra|lra].
    Qed.
  End Line.

  (** ** The nearest point *)
  Definition lo4 : Q := (((1 - u) * (1 - u)) * ((1 - u) * (1 - u)))%Q.
  Definition hi4 : Q := (((1 + u) * (1 + u)) * ((1 + u) * (1 + u)))%Q.
  Lemma zroot_near n : 0 <= n -> (zroot n * zroot n <= inject_Z n * S2 * hi4 /\ inject_Z n * S2 * lo4 <= zroot n * zroot n)%Q.
  Proof.
    intros N. destruct (zroot_rel n N) as [R1 R2]. destruct (u_range f e e here) as [U1 U2]. fold u in U1, U2.
    pose proof (zroot_nonneg n) as R0. assert (RR : (0 <= zroot n * zroot n)%Q) by nra. set (rr := (zroot n * zroot n)%Q) in *.
    assert (NS : (0 <= inject_Z n * S2)%Q).
    { apply Qmult_le_0_compat; [change 0%Q with (inject_Z 0); now rewrite <- Zle_Qle|pose proof S2_pos; lra]. }
    set (y := (inject_Z n * S2)%Q) in *. unfold lo4, hi4. clearbody rr y u. clear - R1 R2 RR NS U1 U2.
    set (a := ((1 + u) * (1 + u))%Q) in *. set (b := ((1 - u) * (1 - u))%Q) in *.
    assert (AB : (1 <= a * a * b)%Q).
    { assert (1 <= (1 + u) * (1 - u * u))%Q by nra. setoid_replace (a * a * b)%Q with (((1 + u) * (1 - u * u)) * ((1 + u) * (1 - u * u)))%Q by (unfold a, b; ring). nra. }
    assert (BA : (a * (b * b) <= 1)%Q).
    { assert (0 <= (1 - u * u) * (1 - u))%Q by nra. assert ((1 - u * u) * (1 - u) <= 1)%Q by nra.
      setoid_replace (a * (b * b))%Q with (((1 - u * u) * (1 - u)) * ((1 - u * u) * (1 - u)))%Q by (unfold a, b; ring). nra. }
    assert (A0 : (0 <= a)%Q) by (unfold a; nra). assert (B0 : (0 <= b)%Q) by (unfold b; nra). split.
    - apply Qle_trans with (rr * (a * a * b))%Q; [nra|]. setoid_replace (rr * (a * a * b))%Q with (rr * b * (a * a))%Q by ring. apply Qmult_le_compat_r; [exact R2|nra].
    - apply Qle_trans with (rr * (a * (b * b)))%Q; [|nra]. setoid_replace (rr * (a * (b * b)))%Q with (rr * a * (b * b))%Q by ring. apply Qmult_le_compat_r; [exact R1|nra].
  Qed.
End Grid.

(** The square of the distance of [p] from the point of the line through [a] and [b] at [s]. *)
Definition apart2 (p a b : pt) (s : Q) : Q :=
  let dx := (inject_Z (px p) - (inject_Z (px a) + s * inject_Z (px b - px a)))%Q in
  let dy := (inject_Z (py p) - (inject_Z (py a) + s * inject_Z (py b - py a)))%Q in
  (dx * dx + dy * dy)%Q.
Definition covers (ka kb : VecModel.endpoint) (s : Q) : Prop :=
  (VecModel.is_free ka = false -> (0 <= s)%Q) /\ (VecModel.is_free kb = false -> (s <= 1)%Q).
Lemma Zsub_Q a b : (inject_Z (a - b) == inject_Z a - inject_Z b)%Q.
Proof. unfold Z.sub. rewrite inject_Z_plus, inject_Z_opp. reflexivity. Qed.
Lemma zdot_Q p q : (inject_Z (zdot p q) == inject_Z (px p) * inject_Z (px q) + inject_Z (py p) * inject_Z (py q))%Q.
Proof. unfold zdot. rewrite inject_Z_plus, !inject_Z_mult. reflexivity. Qed.
(** |p - (a + s v)|^2 = |p - a|^2 - 2 s (p - a) v + s^2 v^2 *)
Lemma apart2_expand p a b s : (apart2 p a b s == inject_Z (zdot (psub p a) (psub p a)) - 2 * s * inject_Z (zdot (psub p a) (psub b a)) + s * s * inject_Z (zdot (psub b a) (psub b a)))%Q.
Proof. unfold apart2. rewrite !zdot_Q. unfold psub. cbn [px py]. rewrite !Zsub_Q. ring. Qed.
(** From the end. *)
Lemma dot_end p a b : zdot (psub p b) (psub b a) = zdot (psub p a) (psub b a) - zdot (psub b a) (psub b a).
Proof. unfold zdot, psub. cbn [px py]. ring. Qed.
Lemma square_end p a b : zdot (psub p b) (psub p b) = zdot (psub p a) (psub p a) - 2 * zdot (psub p a) (psub b a) + zdot (psub b a) (psub b a).
Proof. unfold zdot, psub. cbn [px py]. ring. Qed.
Lemma lagrange u v : area u v * area u v + zdot u v * zdot u v = zdot u u * zdot v v.
Proof. unfold area, zdot. ring. Qed.

Section Nearest.
  Context (p a b : pt) (ka kb : VecModel.endpoint) (N : a <> b).
  Let A := inject_Z (zdot (psub p a) (psub p a)).
  Let B := inject_Z (zdot (psub p a) (psub b a)).
  Let C := inject_Z (zdot (psub b a) (psub b a)).
  Let C0 : (0 < C)%Q.
  Proof. unfold C. change 0%Q with (inject_Z 0). rewrite <- Zlt_Qlt. apply zdot_pos, sub_nz. exact N. Qed.
  Lemma nearest_begin : VecModel.is_free ka = false -> zdot (psub p a) (psub b a) < 0 ->
    covers ka kb 0 /\ (apart2 p a b 0 == inject_Z (zdot (psub p a) (psub p a)))%Q /\ forall s, covers ka kb s -> (apart2 p a b 0 <= apart2 p a b s)%Q.
  Proof.
    intros F T. split; [split; intros; lra|]. split; [rewrite apart2_expand; ring|]. intros s [S1 _]. specialize (S1 F).
    rewrite !apart2_expand. fold A B C. assert (B < 0)%Q by (unfold B; change 0%Q with (inject_Z 0); now rewrite <- Zlt_Qlt).
    assert (0 <= s * (- B))%Q by (apply Qmult_le_0_compat; lra). assert (0 <= s * s * C)%Q by (apply Qmult_le_0_compat; nra). lra.
  Qed.
  Lemma nearest_end : VecModel.is_free kb = false -> 0 < zdot (psub p b) (psub b a) ->
    covers ka kb 1 /\ (apart2 p a b 1 == inject_Z (zdot (psub p b) (psub p b)))%Q /\ forall s, covers ka kb s -> (apart2 p a b 1 <= apart2 p a b s)%Q.
  Proof.
    intros F T. split; [split; intros; lra|]. split.
    - rewrite apart2_expand, (square_end p a b). rewrite inject_Z_plus, Zsub_Q, inject_Z_mult. change (inject_Z 2) with 2%Q. ring.
    - intros s [_ S1]. specialize (S1 F). rewrite dot_end in T. rewrite !apart2_expand. fold A B C.
      assert (C < B)%Q by (unfold B, C; rewrite <- Zlt_Qlt; lia).
      assert (E : (A - 2 * s * B + s * s * C - (A - 2 * 1 * B + 1 * 1 * C) == (1 - s) * (2 * (B - C) + (1 - s) * C))%Q) by ring.
      assert (0 <= (1 - s) * (2 * (B - C) + (1 - s) * C))%Q by (apply Qmult_le_0_compat; [lra|]; assert (0 <= (1 - s) * C)%Q by (apply Qmult_le_0_compat; lra); lra). lra.
  Qed.
  Lemma nearest_inner : VecModel.is_free ka = true \/ 0 <= zdot (psub p a) (psub b a) -> VecModel.is_free kb = true \/ zdot (psub p b) (psub b a) <= 0 ->
    exists s, covers ka kb s /\ (apart2 p a b s * C == inject_Z (area (psub p a) (psub b a) * area (psub p a) (psub b a)))%Q /\ forall s', (apart2 p a b s <= apart2 p a b s')%Q.
  Proof.
    intros T1 T2. exists (B / C)%Q.
    assert (V : forall s', (apart2 p a b s' - apart2 p a b (B / C) == (s' - B / C) * (s' - B / C) * C)%Q).
    { intros s'. rewrite !apart2_expand. fold A B C. field. lra. }
    split; [|split].
    - split; intros F.
      + destruct T1 as [T1|T1]; [congruence|]. apply Qle_shift_div_l; [exact C0|]. rewrite Qmult_0_l. unfold B. change 0%Q with (inject_Z 0). now rewrite <- Zle_Qle.
      + destruct T2 as [T2|T2]; [congruence|]. apply Qle_shift_div_r; [exact C0|]. rewrite Qmult_1_l. unfold B, C. rewrite <- Zle_Qle. rewrite dot_end in T2. lia.
    - rewrite apart2_expand. fold A B C. setoid_replace ((A - 2 * (B / C) * B + B / C * (B / C) * C) * C)%Q with (A * C - B * B)%Q by (field; lra).
      unfold A, B, C. rewrite <- !inject_Z_mult, <- Zsub_Q. rewrite <- lagrange. now rewrite Z.add_simpl_r.
    - intros s'. pose proof (V s') as V'. set (t := (s' - B / C)%Q) in *. assert (0 <= t * t * C)%Q by (apply Qmult_le_0_compat; nra). lra.
  Qed.
End Nearest.

(** The computed number and the nearest point. *)
Lemma pick_nearest f e p a b ka kb : 2 <= prec f -> emin f + 2 * prec f <= e -> emin f + prec f <= e + e -> prec f + e + 1 < emax f -> prec f + (e + e) + 1 < emax f ->
  a <> b -> zdot (psub b a) (psub b a) <= 2 ^ prec f ->
  let d := pick f e p a b ka kb in (0 <= d)%Q /\
  exists s, covers ka kb s /\ (forall s', covers ka kb s' -> (apart2 p a b s <= apart2 p a b s')%Q) /\
    (apart2 p a b s * S2 e * lo4 f <= d * d)%Q /\ (d * d <= apart2 p a b s * S2 e * hi4 f)%Q.
Proof.
  intros Hp He He2 Hm Hm2 N Bn d. unfold d, pick. clear d.
  destruct (negb (VecModel.is_free ka) && (zdot (psub p a) (psub b a) <? 0)) eqn:T1.
  - apply andb_true_iff in T1 as [F T]. apply negb_true_iff in F. apply Z.ltb_lt in T.
    destruct (nearest_begin p a b ka kb N F T) as (V & E & M). split; [apply zroot_nonneg|]. exists 0%Q. split; [exact V|]. split; [exact M|].
    rewrite E. destruct (zroot_near f e Hp He He2 Hm Hm2 _ (zdot_nonneg (psub p a))). split; assumption.
  - destruct (negb (VecModel.is_free kb) && (0 <? zdot (psub p b) (psub b a))) eqn:T2.
    + apply andb_true_iff in T2 as [F T]. apply negb_true_iff in F. apply Z.ltb_lt in T.
      destruct (nearest_end p a b ka kb N F T) as (V & E & M). split; [apply zroot_nonneg|]. exists 1%Q. split; [exact V|]. split; [exact M|].
      rewrite E. destruct (zroot_near f e Hp He He2 Hm Hm2 _ (zdot_nonneg (psub p b))). split; assumption.
    + pose proof (zdot_pos _ (sub_nz _ _ N)) as C0.
      destruct (nearest_inner p a b ka kb N) as (s & V & E & M).
      { apply andb_false_iff in T1 as [T|T]; [left; now apply negb_false_iff in T|right; apply Z.ltb_ge in T; lia]. }
      { apply andb_false_iff in T2 as [T|T]; [left; now apply negb_false_iff in T|right; apply Z.ltb_ge in T; lia]. }
      destruct (zquot_rel f e Hp He He2 Hm Hm2 (area (psub p a) (psub b a)) _ (conj C0 Bn)) as (Q0 & Q1 & Q2).
      split; [exact Q0|]. exists s. split; [exact V|]. split; [intros; apply M|].
      assert (CQ : (0 < inject_Z (zdot (psub b a) (psub b a)))%Q) by (change 0%Q with (inject_Z 0); now rewrite <- Zlt_Qlt).
      rewrite <- E in Q1, Q2. fold (hi4 f) in Q1. fold (lo4 f) in Q2.
      split; apply (Qmult_le_r _ _ _ CQ); eapply Qle_trans; try eassumption; apply Qle_lteq; right; ring.
Qed.
