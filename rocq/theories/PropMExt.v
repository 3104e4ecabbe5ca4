(** C129: extreme vertices, tangents and chords of convex polygons over machine integers. *)
From Coq Require Import ZArith QArith List Bool Lia Lqa.
From Verif Require Import Outcome IntTypes GeoModel HullProofs PolyModel PolyProofs WindProofs ExtremeModel ExtremeProofs ChordModel ChordProofs MGeoModel MGeoProofs MExtModel.
From Verif Require PropPoly PropExtreme.
Import ListNotations.
Local Open Scope Z_scope.

(** ** Specification *)
(** The points are in a box with sides [W] and [H]. *)
Definition within_box (x0 y0 W H : Z) (pts : list pt) : Prop :=
  forall q, In q pts -> x0 <= px q <= x0 + W /\ y0 <= py q <= y0 + H.
Definition quotient (r : Z * Z) : Q := (inject_Z (fst r) / inject_Z (snd r))%Q.
(** The point [a + s * (b - a)] is not to the right of an edge of the polygon. *)
Definition not_right (poly : list pt) (a b : pt) (s : Q) : Prop :=
  forall v w, poly_edge poly v w ->
    (0 <= (inject_Z (px w) - inject_Z (px v)) * (inject_Z (py a) + s * (inject_Z (py b) - inject_Z (py a)) - inject_Z (py v))
        - (inject_Z (py w) - inject_Z (py v)) * (inject_Z (px a) + s * (inject_Z (px b) - inject_Z (px a)) - inject_Z (px v)))%Q.

(** ** The search is the same if comparisons are exact *)
Section Search.
  Variable t : ity.
  Variable mdir : pt -> outcome pt.
  Variable dir : pt -> pt.
  Variable poly : list pt.
  Hypothesis N : poly <> [].
  Hypothesis X : forall v w, In v poly -> In w poly -> mvertex_cmp t mdir v w = Ok (vertex_cmp dir v w).

  Lemma is_extreme_ok i : mis_extreme t mdir poly i = Ok (is_extreme dir poly i).
  Proof.
    unfold mis_extreme, is_extreme. rewrite X by (apply cyc_In; exact N). cbn [bind].
    destruct (_ =? o_left); cbn [negb andb]; [reflexivity|]. rewrite X by (apply cyc_In; exact N). reflexivity.
  Qed.
  Lemma vertex_In i : (i < length poly)%nat -> In (vertex poly i) poly.
  Proof. intro L. unfold vertex. now apply nth_In. Qed.
  Lemma extreme_loop_ok fuel : forall first s last, (first < last <= length poly)%nat ->
    mextreme_loop fuel t mdir poly first s last = extreme_loop fuel dir poly first s last.
  Proof.
    induction fuel as [|fuel IH]; intros first s last B; cbn [mextreme_loop extreme_loop];
      (destruct (Nat.eqb_spec (first + 1) last) as [E|E]; [reflexivity|]); [reflexivity|].
    assert (M : (first + (last - first) / 2 < last)%nat).
    { assert ((last - first) / 2 < last - first)%nat by (apply Nat.div_lt; lia). lia. }
    assert (M' : (0 < (last - first) / 2)%nat) by (apply Nat.div_str_pos; lia).
    rewrite is_extreme_ok. cbn [bind]. destruct (is_extreme dir poly _) as [ok ms]. destruct ok; [reflexivity|].
    destruct (negb (s =? ms)); cbn [bind].
    - destruct (s <? ms); apply IH; lia.
    - rewrite X by (apply vertex_In; lia). cbn [bind]. destruct (s =? _); apply IH; lia.
  Qed.
  Lemma extreme_ok : mextreme_vertex t mdir poly = extreme_vertex dir poly.
  Proof.
    unfold mextreme_vertex, extreme_vertex. destruct (length poly <=? 1)%nat eqn:E; [reflexivity|]. apply Nat.leb_gt in E.
    rewrite is_extreme_ok. cbn [bind]. destruct (is_extreme dir poly 0) as [ok s]. destruct ok; [reflexivity|].
    apply extreme_loop_ok. lia.
  Qed.
End Search.

Lemma convex_nil poly : convex poly -> poly <> [].
Proof. intros C E. pose proof (V_in poly C 0) as I. rewrite E in I. contradiction. Qed.

Lemma psub_zero a b : psub b a = P 0 0 -> a = b.
Proof. destruct a as [x y], b as [x' y']. unfold psub. cbn [px py]. intro E. injection E. intros. f_equal; lia. Qed.

(** ** Directions that do not depend on the vertex *)
Lemma cmp_const t mdir d x0 y0 W H poly : IntTypes.sgn t = true -> within_box x0 y0 W H poly ->
  W <= top t -> H <= top t -> Z.abs (px d) * H + Z.abs (py d) * W <= top t -> (forall x, mdir x = Ok d) ->
  forall v w, In v poly -> In w poly -> mvertex_cmp t mdir v w = Ok (vertex_cmp (fun _ => d) v w).
Proof.
  intros HS B HW HH HD M v w V Wi. pose proof (sgn_promote t HS) as SP. apply B in V, Wi. unfold mvertex_cmp. rewrite M. cbn [bind].
  rewrite mpsub_ok by (try exact SP; lia). cbn [bind]. unfold morient, vertex_cmp, orient.
  assert (X1 : Z.abs (px (psub w v) * py d) <= W * Z.abs (py d)) by (apply abs_mul_le; cbn [psub px]; lia).
  assert (X2 : Z.abs (py (psub w v) * px d) <= H * Z.abs (px d)) by (apply abs_mul_le; cbn [psub py]; lia).
  rewrite marea_ok; rewrite ?promote_idem, ?top_promote; [reflexivity|exact SP| | |]; [nia|nia|]. unfold area. lia.
Qed.

(** ** Directions from and to a point *)
Lemma cmp_point t (away : bool) p x0 y0 W H poly : IntTypes.sgn t = true -> within_box x0 y0 W H (p :: poly) ->
  W <= top t -> H <= top t -> W * H <= top t ->
  forall v w, In v poly -> In w poly ->
    mvertex_cmp t (fun x => if away then mpsub t x p else mpsub t p x) v w
    = Ok (vertex_cmp (fun x => if away then psub x p else psub p x) v w).
Proof.
  intros HS B HW HH HA v w V Wi. pose proof (sgn_promote t HS) as SP. pose proof (B p (or_introl eq_refl)) as Bp.
  assert (Bv : in_box x0 y0 W H v) by (apply B; now right). assert (Bw : in_box x0 y0 W H w) by (apply B; now right).
  unfold mvertex_cmp, vertex_cmp.
  assert (E : (if away then mpsub t w p else mpsub t p w) = Ok (if away then psub w p else psub p w)).
  { unfold in_box in *. destruct away; apply mpsub_ok; try exact SP; lia. }
  rewrite E. cbn [bind]. rewrite mpsub_ok by (try exact SP; unfold in_box in *; lia). cbn [bind].
  unfold morient, orient. set (d := if away then psub w p else psub p w).
  assert (D : Z.abs (px d) <= W /\ Z.abs (py d) <= H) by (unfold d, in_box in *; destruct away; cbn [psub px py]; lia).
  assert (X1 : Z.abs (px (psub w v) * py d) <= W * H) by (apply abs_mul_le; unfold in_box in *; cbn [psub px]; lia).
  assert (X2 : Z.abs (py (psub w v) * px d) <= H * W) by (apply abs_mul_le; unfold in_box in *; cbn [psub py]; lia).
  rewrite marea_ok; rewrite ?promote_idem, ?top_promote; [reflexivity|exact SP|lia|lia|].
  pose proof (turn_bound x0 y0 W H w v p Bw Bv Bp) as T. unfold turn in T. unfold area, d. destruct away; cbn [psub px py]; lia.
Qed.

(** ** C129 *)
Theorem C129_extreme : forall t d poly x0 y0 W H, IntTypes.sgn t = true -> convex poly -> d <> P 0 0 -> within_box x0 y0 W H poly ->
  W < ihigh (promote t) -> H < ihigh (promote t) -> Z.abs (px d) * H + Z.abs (py d) * W < ihigh (promote t) ->
  exists m, mextreme_vertex t (fun _ => Ok d) poly = Ok m /\ (m < length poly)%nat
    /\ (forall w, In w poly -> 0 <= px d * (py w - py (vertex poly m)) - py d * (px w - px (vertex poly m)))
    /\ (let w := vertex poly ((m + length poly - 1) mod length poly) in
        0 < px d * (py w - py (vertex poly m)) - py d * (px w - px (vertex poly m))).
Proof.
  intros t d poly x0 y0 W H HS C ND B HW HH HD.
  rewrite (extreme_ok t _ (fun _ => d)); [now apply PropExtreme.C94_extreme|now apply convex_nil|].
  apply (cmp_const t _ d x0 y0 W H); auto; unfold top; lia.
Qed.

Theorem C129_tangents : forall t p poly x0 y0 W H, IntTypes.sgn t = true -> convex poly ->
  (exists a b, poly_edge poly a b /\ turn a b p < 0) -> within_box x0 y0 W H (p :: poly) ->
  W < ihigh (promote t) -> H < ihigh (promote t) -> W * H < ihigh (promote t) ->
  exists l r, mpolygon_tangents t p poly = Ok (l, r) /\ (l < length poly)%nat /\ (r < length poly)%nat
    /\ (forall w, In w poly -> 0 <= turn p (vertex poly l) w) /\ (forall w, In w poly -> turn p (vertex poly r) w <= 0).
Proof.
  intros t p poly x0 y0 W H HS C O B HW HH HA. pose proof (convex_nil poly C) as NN.
  replace (mpolygon_tangents t p poly) with (polygon_tangents p poly); [now apply tangents_spec|].
  unfold mpolygon_tangents, polygon_tangents.
  rewrite (extreme_ok t _ (fun x => psub x p) poly NN) by (apply (cmp_point t true p x0 y0 W H); auto; unfold top; lia).
  rewrite (extreme_ok t _ (fun x => psub p x) poly NN) by (apply (cmp_point t false p x0 y0 W H); auto; unfold top; lia).
  reflexivity.
Qed.

(** ** Chords *)
Section Chords.
  Variable t : ity.
  Variables x0 y0 W H : Z.
  Variables a b : pt.
  Variable poly : list pt.
  Hypothesis Hb : 0 < bits t.
  Hypothesis HS : IntTypes.sgn t = true.
  Hypothesis B : within_box x0 y0 W H (a :: b :: poly).
  Hypothesis HW : W < ihigh t.
  Hypothesis HH : H < ihigh t.
  Hypothesis HA : 2 * (W * H) <= top t.
  Let l := make_line a b.

  Lemma WH : 0 <= W /\ 0 <= H.
  Proof. pose proof (B a (or_introl eq_refl)). lia. Qed.
  Lemma W_le : W <= top t. Proof. pose proof (high_promote t HS). unfold top. lia. Qed.
  Lemma H_le : H <= top t. Proof. pose proof (high_promote t HS). unfold top. lia. Qed.
  Lemma l_short : Z.abs (px (lvec l)) <= W /\ Z.abs (py (lvec l)) <= H.
  Proof. pose proof (B a ltac:(now left)). pose proof (B b ltac:(right; now left)). unfold l, make_line. cbn [lvec psub px py]. lia. Qed.

  Lemma neg_ok : mneg t (lvec l) = Ok (psub (P 0 0) (lvec l)).
  Proof.
    pose proof l_short as [S1 S2]. pose proof W_le. pose proof H_le. pose proof (sgn_promote t HS) as SP.
    unfold mneg. rewrite !arith_ok by (try exact SP; lia). cbn [bind]. unfold mconv, psub. cbn [px py].
    assert (L : ilow t = - ihigh t) by (unfold ilow, ihigh; rewrite HS; reflexivity).
    rewrite !wrap_id by (try exact Hb; unfold in_ity; lia). f_equal.
  Qed.

  Lemma box_a : in_box x0 y0 W H a. Proof. apply B. now left. Qed.
  Lemma box_b : in_box x0 y0 W H b. Proof. apply B. right. now left. Qed.
  Lemma box_v v : In v poly -> in_box x0 y0 W H v. Proof. intro I. apply B. right. now right. Qed.
  Lemma orient_ok v : In v poly -> morient_pl t v l = Ok (orient_pl v l).
  Proof.
    intro I. pose proof WH. apply (morient_pl_ok t x0 y0 W H); try exact HS; try exact HW; try exact HH; try nia;
      [now apply box_v|apply box_a|apply box_b].
  Qed.
  Lemma edge_line_ok v w : In v poly -> In w poly -> mmake_line t v w = Ok (make_line v w).
  Proof.
    intros I J. pose proof WH. apply (mmake_line_ok t x0 y0 W H); try exact Hb; try exact HS; try exact HW; try exact HH;
      now apply box_v.
  Qed.
  Lemma area_short u v : Z.abs (px u) <= W -> Z.abs (py u) <= H -> Z.abs (px v) <= W -> Z.abs (py v) <= H ->
    marea t u v = Ok (area u v) /\ marea (promote t) u v = Ok (area u v) /\ Z.abs (area u v) <= top t.
  Proof.
    intros. pose proof WH. pose proof (sgn_promote t HS) as SP.
    assert (X1 : Z.abs (px u * py v) <= W * H) by (apply abs_mul_le; assumption).
    assert (X2 : Z.abs (py u * px v) <= H * W) by (apply abs_mul_le; assumption).
    assert (X3 : Z.abs (area u v) <= top t) by (unfold area; lia).
    split; [|split; [|exact X3]]; apply marea_ok; rewrite ?promote_idem, ?top_promote; try exact SP; lia.
  Qed.
  Lemma cross_ok kb ke v w : In v poly -> In w poly ->
    exists ms, mcross_scalar t kb ke l (make_line v w) = Ok ms /\ map quotient ms = cross_scalar kb ke l (make_line v w)
      /\ (forall m, In m ms -> snd m <> 0).
  Proof.
    intros I J. pose proof (box_v v I) as Bv. pose proof (box_v w J) as Bw. pose proof box_a as Ba. pose proof l_short as [S1 S2].
    pose proof (sgn_promote t HS) as SP. pose proof W_le. pose proof H_le.
    unfold mcross_scalar, cross_scalar. cbn [make_line lbegin lvec].
    assert (E : Z.abs (px (psub w v)) <= W /\ Z.abs (py (psub w v)) <= H) by (unfold in_box in *; cbn [psub px py]; lia).
    assert (D : Z.abs (px (psub a v)) <= W /\ Z.abs (py (psub a v)) <= H) by (unfold in_box in *; cbn [psub px py]; lia).
    destruct (area_short (psub w v) (lvec l)) as (E1 & _ & A1); try tauto.
    destruct (area_short (psub a v) (psub w v)) as (_ & E2 & A2); try tauto.
    destruct (area_short (psub a v) (lvec l)) as (_ & E3 & A3); try tauto.
    change (lbegin l) with a. rewrite E1. cbn [bind]. destruct (Z.eqb_spec (area (psub w v) (lvec l)) 0) as [Z|Z].
    { exists []. split; [reflexivity|]. split; [reflexivity|]. intros m []. }
    assert (ES : mpsub t a v = Ok (psub a v)).
    { apply mpsub_ok; try exact SP; destruct D as [D1 D2]; cbn [psub px py] in D1, D2; lia. }
    rewrite ES. cbn [bind]. rewrite E2. cbn [bind]. rewrite E3. cbn [bind]. unfold msub. rewrite !Z.sub_0_l.
    rewrite !arith_ok by (try exact SP; lia). cbn [bind].
    set (ta := area (psub w v) (lvec l)) in *. set (la := area (psub a v) (psub w v)) in *.
    destruct (ta <? 0); cbn [bind]; rewrite ?Z.sub_0_l.
    - destruct (line_test kb ke (- la) (- ta)); cbn [negb].
      + exists [(la, ta)]. split; [reflexivity|]. split; [reflexivity|]. intros m [<-|[]]. exact Z.
      + exists []. split; [reflexivity|]. split; [reflexivity|]. intros m [].
    - destruct (line_test kb ke la ta); cbn [negb].
      + exists [(la, ta)]. split; [reflexivity|]. split; [reflexivity|]. intros m [<-|[]]. exact Z.
      + exists []. split; [reflexivity|]. split; [reflexivity|]. intros m [].
  Qed.

  Lemma chain_ok fo fuel : forall first last, (first < length poly)%nat -> (last < length poly)%nat ->
    mchain_loop fuel t l poly first last fo = chain_loop fuel l poly first last fo /\
    forall u v, chain_loop fuel l poly first last fo = Ok (u, v) -> (u < length poly)%nat /\ (v < length poly)%nat.
  Proof.
    induction fuel as [|fuel IH]; intros first last F L; cbn [mchain_loop chain_loop];
      (destruct (Nat.eqb_spec (cyclic_plus (length poly) first 1) last) as [E|E];
        [split; [reflexivity|]; intros u v X; injection X as <- <-; auto|]); [split; [reflexivity|discriminate]|].
    set (m := cyclic_plus (length poly) first (cyclic_minus (length poly) last first / 2)).
    assert (M : (m < length poly)%nat).
    { assert (D : (cyclic_minus (length poly) last first < length poly)%nat).
      { unfold cyclic_minus. destruct (Nat.leb_spec first last); lia. }
      assert (D2 : (cyclic_minus (length poly) last first / 2 <= cyclic_minus (length poly) last first)%nat) by (apply Nat.div_le_upper_bound; lia).
      unfold m, cyclic_plus. destruct (Nat.leb_spec (length poly - first) (cyclic_minus (length poly) last first / 2)); lia. }
    rewrite orient_ok by (unfold vertex; now apply nth_In). cbn [bind].
    destruct (orient_pl (vertex poly m) l =? fo); apply IH; assumption.
  Qed.
  Lemma polygon_ok kb ke r : convex poly -> a <> b -> intersect_polygon kb ke l poly = Ok r ->
    exists ms, mintersect_polygon t kb ke l poly = Ok ms /\ map quotient ms = r /\ (forall m, In m ms -> snd m <> 0).
  Proof.
    intros C NE. pose proof WH as [W0 H0]. pose proof l_short as [S1 S2]. unfold intersect_polygon, mintersect_polygon. unfold assert_then.
    destruct (negb (peq (lvec l) (P 0 0))); [|discriminate].
    assert (NZ : lvec l <> P 0 0).
    { unfold l, make_line. cbn [lvec]. intro E. apply NE. now apply psub_zero. }
    assert (BP : within_box x0 y0 W H poly) by (intros q I; apply box_v, I).
    assert (DB : Z.abs (px (lvec l)) * H + Z.abs (py (lvec l)) * W <= top t) by nia.
    rewrite (extreme_ok t _ (fun _ => lvec l) poly (convex_nil poly C))
      by (apply (cmp_const t _ (lvec l) x0 y0 W H); auto using W_le, H_le).
    rewrite (extreme_ok t _ (fun _ => psub (P 0 0) (lvec l)) poly (convex_nil poly C)).
    2:{ apply (cmp_const t _ (psub (P 0 0) (lvec l)) x0 y0 W H); auto using W_le, H_le.
        - cbn [psub px py]. rewrite !Z.sub_0_l, !Z.abs_opp. exact DB.
        - intros _. apply neg_ok. }
    destruct (extreme_direction (lvec l) poly C NZ) as (R & ER & RB & _).
    destruct (extreme_direction (psub (P 0 0) (lvec l)) poly C) as (L & EL & LB & _).
    { intros E. apply NZ. destruct (lvec l) as [x y]. unfold psub in E. cbn [px py] in E. injection E as E1 E2. f_equal; lia. }
    rewrite ER. cbn [bind]. rewrite EL. cbn [bind]. rewrite !orient_ok by (unfold vertex; now apply nth_In). cbn [bind].
    destruct (_ || _).
    { intro X. injection X as <-. exists []. split; [reflexivity|]. split; [reflexivity|]. intros m []. }
    unfold intersect_chain, mintersect_chain.
    destruct (chain_ok (orient_pl (vertex poly L) l) (length poly) L R LB RB) as [-> B1].
    destruct (chain_ok (orient_pl (vertex poly R) l) (length poly) R L RB LB) as [-> B2].
    destruct (chain_loop _ l poly L R _) as [[u1 v1]| | | |]; try discriminate. cbn [bind].
    destruct (chain_loop _ l poly R L _) as [[u2 v2]| | | |]; try discriminate. cbn [bind].
    destruct (B1 _ _ eq_refl) as [U1 V1]. destruct (B2 _ _ eq_refl) as [U2 V2].
    rewrite !edge_line_ok by (unfold vertex; now apply nth_In). cbn [bind].
    destruct (cross_ok kb ke (vertex poly u1) (vertex poly v1)) as (m1 & -> & Q1 & N1); try (unfold vertex; now apply nth_In).
    destruct (cross_ok kb ke (vertex poly u2) (vertex poly v2)) as (m2 & -> & Q2 & N2); try (unfold vertex; now apply nth_In).
    cbn [bind]. intro X. injection X as <-. exists (m1 ++ m2). split; [reflexivity|].
    split; [now rewrite map_app, Q1, Q2|]. intros m I. apply in_app_or in I. destruct I; auto.
  Qed.
End Chords.

Lemma not_right_iff poly a b s : not_right poly a b s <-> forall v w, poly_edge poly v w ->
    (0 <= inject_Z (turn v w a) + s * inject_Z ((px w - px v) * (py b - py a) - (py w - py v) * (px b - px a)))%Q.
Proof.
  assert (E0 : forall v w : pt, ((inject_Z (px w) - inject_Z (px v)) * (inject_Z (py a) + s * (inject_Z (py b) - inject_Z (py a)) - inject_Z (py v))
        - (inject_Z (py w) - inject_Z (py v)) * (inject_Z (px a) + s * (inject_Z (px b) - inject_Z (px a)) - inject_Z (px v))
      == inject_Z (turn v w a) + s * inject_Z ((px w - px v) * (py b - py a) - (py w - py v) * (px b - px a)))%Q).
  { intros v w. unfold turn, Z.sub. rewrite !inject_Z_plus, !inject_Z_opp, !inject_Z_mult, !inject_Z_plus, !inject_Z_opp. ring. }
  unfold not_right. split; intros X v w E; specialize (X v w E); [rewrite <- E0|rewrite E0]; exact X.
Qed.

Theorem C129_chord : forall t kb ke a b poly x0 y0 W H, 0 < bits t -> IntTypes.sgn t = true -> convex poly -> a <> b ->
  within_box x0 y0 W H (a :: b :: poly) -> W < ihigh t -> H < ihigh t -> 2 * (W * H) < ihigh (promote t) ->
  exists l ms, mmake_line t a b = Ok l /\ mintersect_polygon t kb ke l poly = Ok ms /\ (forall m, In m ms -> snd m <> 0) /\
    ((exists t1 t2, map quotient ms = filter (on_line kb ke) [t1; t2] /\ (t1 <= t2)%Q
        /\ forall s, not_right poly a b s <-> (t1 <= s /\ s <= t2)%Q)
     \/ (ms = [] /\ forall s, ~ not_right poly a b s)).
Proof.
  intros t kb ke a b poly x0 y0 W H Hb HS C NE B HW HH HA. exists (make_line a b).
  assert (HA' : 2 * (W * H) <= top t) by (unfold top; lia).
  assert (ML : mmake_line t a b = Ok (make_line a b)).
  { apply (mmake_line_ok t x0 y0 W H Hb HS HW HH); apply B; cbn; auto. }
  assert (NZ : lvec (make_line a b) <> P 0 0).
  { unfold make_line. cbn [lvec]. intro E. apply NE. now apply psub_zero. }
  assert (R : exists r, intersect_polygon kb ke (make_line a b) poly = Ok r /\
    ((exists t1 t2, r = filter (on_line kb ke) [t1; t2] /\ (t1 <= t2)%Q /\ forall s, not_right poly a b s <-> (t1 <= s /\ s <= t2)%Q)
     \/ (r = [] /\ forall s, ~ not_right poly a b s))).
  { destruct (PropExtreme.C96_chord kb ke (make_line a b) poly C NZ) as [(t1 & t2 & E & L & I)|(E & I)]; eexists; (split; [exact E|]).
    - left. exists t1, t2. split; [reflexivity|]. split; [exact L|]. intro s. rewrite not_right_iff. apply I.
    - right. split; [reflexivity|]. intros s. rewrite not_right_iff. apply I. }
  destruct R as (r & E & RR). destruct (polygon_ok t x0 y0 W H a b poly Hb HS B HW HH HA' kb ke r C NE E) as (ms & EM & Q & Z).
  exists ms. split; [exact ML|]. split; [exact EM|]. split; [exact Z|]. destruct RR as [(t1 & t2 & F & RR)|[F RR]].
  - left. exists t1, t2. now rewrite Q.
  - right. split; [|exact RR]. subst r. now destruct ms.
Qed.

(** The bounds are exact. *)
Theorem C129_tight : forall t W H, IntTypes.sgn t = true -> 0 < W < ihigh t -> 0 < H < ihigh t ->
  (ihigh (promote t) <= W * H -> mpolygon_tangents t (P W H) [P 0 0; P W 0; P 0 H] = UB) /\
  (ihigh (promote t) <= 2 * (W * H) -> 0 < bits t -> exists l, mmake_line t (P W 0) (P 0 H) = Ok l /\
     forall kb ke, mintersect_polygon t kb ke l [P W H; P 0 0; P W 0] = UB).
Proof.
  intros t W H HS HW HH. pose proof (sgn_promote t HS) as SP. pose proof (high_promote t HS) as HP. split.
  - intro HA. unfold mpolygon_tangents, mextreme_vertex. cbn [length Nat.leb]. unfold mis_extreme.
    change (cyc [P 0 0; P W 0; P 0 H] (Z.of_nat 0 + 1)) with (P W 0). change (cyc [P 0 0; P W 0; P 0 H] (Z.of_nat 0 + 0)) with (P 0 0).
    unfold mvertex_cmp. rewrite !mpsub_ok by (try exact SP; cbn [px py]; unfold top; lia). cbn [bind]. unfold morient, marea, mmul.
    cbn [psub px py]. rewrite promote_idem, arith_ub; [reflexivity|exact SP|]. unfold top. lia.
  - intros HA Hb. exists (make_line (P W 0) (P 0 H)). split.
    { unfold mmake_line. rewrite mpsub_ok by (try exact SP; cbn [px py]; unfold top; lia). cbn [bind]. unfold mconv, make_line. f_equal. f_equal.
      assert (L : ilow t = - ihigh t) by (unfold ilow, ihigh; rewrite HS; reflexivity).
      cbn [psub px py]. rewrite !wrap_id by (try exact Hb; unfold in_ity; lia). reflexivity. }
    intros kb ke. unfold mintersect_polygon, assert_then. 
    assert (E : negb (peq (lvec (make_line (P W 0) (P 0 H))) (P 0 0)) = true).
    { unfold peq, make_line, psub. cbn [lvec px py]. destruct (Z.eqb_spec (0 - W) 0) as [E|_]; [lia|]. reflexivity. }
    rewrite E. unfold mextreme_vertex. cbn [length Nat.leb]. unfold mis_extreme.
    change (cyc [P W H; P 0 0; P W 0] (Z.of_nat 0 + 1)) with (P 0 0). change (cyc [P W H; P 0 0; P W 0] (Z.of_nat 0 + 0)) with (P W H).
    unfold mvertex_cmp. cbn [bind]. rewrite mpsub_ok by (try exact SP; cbn [px py]; unfold top; lia). cbn [bind]. unfold morient, marea, mmul, msub.
    cbn [make_line lvec psub px py]. rewrite !promote_idem. rewrite !Z.sub_0_r, Z.sub_0_l.
    destruct (Z_lt_le_dec (top t) (W * H)) as [L|L]; [rewrite arith_ub by assumption; reflexivity|].
    rewrite !arith_ok by (try exact SP; lia). cbn [bind]. rewrite arith_ub; [reflexivity|exact SP|unfold top; lia].
Qed.

Definition moved : list pt := [P 100 100; P 104 99; P 106 103; P 103 106; P 99 104].
Lemma moved_convex : convex moved.
Proof.
  split; [cbn; lia|]. intros i j k I K. cbn in K.
  assert (i < 5 /\ j < 5 /\ k < 5)%nat as (A & B & C) by lia.
  do 5 (destruct i as [|i]; [do 5 (destruct j as [|j]; [do 5 (destruct k as [|k]; [try lia; reflexivity|]); lia|]); lia|]). lia.
Qed.
Lemma moved_box a b : 90 <= px a <= 120 -> 90 <= py a <= 120 -> 90 <= px b <= 120 -> 90 <= py b <= 120 ->
  within_box 90 90 30 30 (a :: b :: moved).
Proof. intros X Y X' Y' q I. destruct I as [<-|[<-|I]]; [lia|lia|]. repeat (destruct I as [<-|I]; [cbn [px py]; lia|]). destruct I. Qed.
Lemma moved_edge : poly_edge moved (P 104 99) (P 106 103).
Proof. exists [P 100 100], [P 103 106; P 99 104; P 100 100]. reflexivity. Qed.

(** Finding: signs of unsigned values are never negative, and with unsigned coordinates there is neither the
    extreme vertex nor the tangent, and chords are missed. *)
Theorem C129_unsigned_refuted : convex moved /\ (forall q, In q moved -> 0 <= px q <= 200 /\ 0 <= py q <= 200) /\
  (exists m w, mextreme_vertex uint32 (fun _ => Ok (P 1 0)) moved = Ok m /\ In w moved /\ py w < py (vertex moved m)) /\
  (exists l r w, mpolygon_tangents uint32 (P 110 100) moved = Ok (l, r) /\ In w moved /\ turn (P 110 100) (vertex moved l) w < 0) /\
  (exists l, mmake_line uint32 (P 100 102) (P 101 102) = Ok l /\ mintersect_polygon uint32 Free Free l moved = Ok []
     /\ not_right moved (P 100 102) (P 101 102) 0).
Proof.
  split; [apply moved_convex|]. split.
  { intros q I. repeat (destruct I as [<-|I]; [cbn [px py]; lia|]). destruct I. }
  split. { exists 0%nat, (P 104 99). split; [vm_compute; reflexivity|]. split; [right; now left|reflexivity]. }
  split. { exists 0%nat, 0%nat, (P 103 106). split; [vm_compute; reflexivity|]. split; [right; right; right; now left|reflexivity]. }
  exists (L (P 100 102) (P 1 0)). split; [vm_compute; reflexivity|]. split; [vm_compute; reflexivity|].
  apply not_right_iff. intros v w E. apply PropPoly.poly_edge_nth in E. destruct E as (i & Li & -> & ->). cbn in Li.
  do 5 (destruct i as [|i]; [vm_compute; discriminate|]). lia.
Qed.
Example C129_case : convex moved /\ within_box 90 90 30 30 (P 110 100 :: P 110 100 :: moved)
  /\ (exists a b, poly_edge moved a b /\ turn a b (P 110 100) < 0)
  /\ 30 < ihigh int8 /\ 2 * (30 * 30) < ihigh (promote int8)
  /\ mextreme_vertex int8 (fun _ => Ok (P 1 0)) moved = Ok 1%nat
  /\ mpolygon_tangents int8 (P 110 100) moved = Ok (3, 1)%nat
  /\ mintersect_polygon int8 Free Free (L (P 100 102) (P 1 0)) moved = Ok [(-2, 4); (-22, -4)]
  /\ mintersect_polygon int8 Closed Free (L (P 100 102) (P 1 0)) moved = Ok [(-22, -4)]
  /\ mintersect_polygon int8 Free Free (L (P 100 107) (P 1 0)) moved = Ok [].
Proof.
  split; [apply moved_convex|]. split; [apply moved_box; cbn [px py]; lia|].
  split. { exists (P 104 99), (P 106 103). split; [apply moved_edge|reflexivity]. }
  repeat split.
Qed.
Example C129_tight_case : 0 < 50000 < ihigh int32 /\ ihigh (promote int32) <= 50000 * 50000.
Proof. vm_compute. repeat split; discriminate. Qed.
Print Assumptions C129_extreme.
Print Assumptions C129_tangents.
Print Assumptions C129_chord.
Print Assumptions C129_tight.
Print Assumptions C129_unsigned_refuted.
