(** C136: extreme vertices, tangents, antipodal vertices and chords of convex polygons over floating point numbers. *)
From Coq Require Import ZArith QArith Qpower List Bool Lia Lqa.
From Verif Require Import Outcome FGeoModel FGeoProofs GeoModel HullProofs MGeoProofs PolyModel PolyProofs WindProofs ExtremeModel ExtremeProofs
  ChordModel ChordProofs FPolyModel FPolyProofs PropFPoly FCrossModel FLineModel FLineProofs FExtModel FExtProofs PropMExt.
From Verif Require VecModel PropPoly PropExtreme.
Import ListNotations.
Local Open Scope Z_scope.

(** [grid e p], [fine f e], [fit f pts]: PropFPoly.v; [convex poly]: every vertex is strictly to the left
    of every edge (ExtremeProofs.v); [not_right poly a b s]: the point of the line from a to b with the
    parameter s is in the closed polygon (PropMExt.v); [on_line ka kb s]: between the ends of the line. *)

(** The points are in a box of W x H steps with 2 W H at most 2^prec. *)
Definition fit_twice (f : format) (pts : list pt) : Prop :=
  exists x0 y0 W H, (forall q, In q pts -> in_box x0 y0 W H q) /\
    W <= 2 ^ prec f /\ H <= 2 ^ prec f /\ 2 * (W * H) <= 2 ^ prec f.
(** Sizes of the polygon times the direction are at most 2^prec. *)
Definition fit_direction (f : format) (d : pt) (pts : list pt) : Prop :=
  exists x0 y0 W H, (forall q, In q pts -> in_box x0 y0 W H q) /\
    W <= 2 ^ prec f /\ H <= 2 ^ prec f /\ Z.abs (px d) * H <= 2 ^ prec f /\ Z.abs (py d) * W <= 2 ^ prec f.

(** ** Points of a grid *)
(** The vertex farthest to the right of the direction, the first one of two. *)
Theorem C136_extreme : forall f e d poly, fine f e -> convex poly -> d <> P 0 0 -> fit_direction f d poly ->
  exists m, fextreme_vertex f (fun _ => grid e d) (map (grid e) poly) = Ok m /\ (m < length poly)%nat
    /\ (forall w, In w poly -> 0 <= px d * (py w - py (vertex poly m)) - py d * (px w - px (vertex poly m)))
    /\ (let w := vertex poly ((m + length poly - 1) mod length poly) in
        0 < px d * (py w - py (vertex poly m)) - py d * (px w - px (vertex poly m))).
Proof.
  intros f e d poly (Hp & E1 & E2 & M1 & M2) C ND (x0 & y0 & W & H & B & HW & HH & D1 & D2).
  rewrite (fextreme_grid f e _ (fun _ => d) poly (convex_nil poly C)); [now apply PropExtreme.C94_extreme|].
  intros v w V Wi. apply fcmp_const with (x0 := x0) (y0 := y0) (W := W) (H := H); auto using pat_grid.
Qed.

(** All vertices are on one side of the lines from the point to the two vertices. *)
Theorem C136_tangents : forall f e p poly, fine f e -> convex poly -> fit f (p :: poly) ->
  (exists a b, poly_edge poly a b /\ turn a b p < 0) ->
  exists l r, fpolygon_tangents f (grid e p) (map (grid e) poly) = Ok (l, r) /\ (l < length poly)%nat /\ (r < length poly)%nat
    /\ (forall w, In w poly -> 0 <= turn p (vertex poly l) w) /\ (forall w, In w poly -> turn p (vertex poly r) w <= 0).
Proof.
  intros f e p poly (Hp & E1 & E2 & M1 & M2) C (x0 & y0 & W & H & B & HW & HH & HA) O.
  pose proof (convex_nil poly C) as NN. pose proof (B p ltac:(now left)) as Bp.
  replace (fpolygon_tangents f (grid e p) (map (grid e) poly)) with (polygon_tangents p poly); [now apply tangents_spec|].
  unfold fpolygon_tangents, polygon_tangents.
  rewrite (fextreme_grid f e _ (fun x => psub x p) poly NN).
  2:{ intros v w V Wi. unfold fvertex_cmp, vertex_cmp.
      apply forient_diff with (x0 := x0) (y0 := y0) (W := W) (H := H); auto; apply B; now right. }
  rewrite (fextreme_grid f e _ (fun x => psub p x) poly NN); [reflexivity|].
  intros v w V Wi. unfold fvertex_cmp, vertex_cmp.
  apply forient_diff with (x0 := x0) (y0 := y0) (W := W) (H := H); auto; apply B; now right.
Qed.

(** Pairs of positions of vertices, every antipodal pair among them, less than twice as many as vertices. *)
Theorem C136_antipodal : forall f e poly, fine f e -> convex poly -> fit f poly ->
  exists r, fantipodal_vertices f (map (grid e) poly) = Ok r
  /\ (forall x y, In (x, y) r -> (x < y < length poly)%nat)
  /\ (length r < 2 * length poly)%nat
  /\ (forall a b w, (a < b < length poly)%nat ->
        (forall v, In v poly -> v <> vertex poly a -> 0 < px w * (py v - py (vertex poly a)) - py w * (px v - px (vertex poly a))) ->
        (forall v, In v poly -> v <> vertex poly b -> px w * (py v - py (vertex poly b)) - py w * (px v - px (vertex poly b)) < 0) ->
        In (a, b) r).
Proof.
  intros f e poly (Hp & E1 & E2 & M1 & M2) C (x0 & y0 & W & H & B & HW & HH & HA).
  rewrite (fantipodal_grid f e Hp E1 E2 M1 M2 x0 y0 W H HW HH poly HA B). now apply PropExtreme.C93_antipodal.
Qed.

(** More steps change nothing. *)
Lemma chain_more f l poly fo k fuel : forall first last r,
  fchain_loop fuel f l poly first last fo = Ok r -> fchain_loop (fuel + k) f l poly first last fo = Ok r.
Proof.
  induction fuel as [|fuel IH]; intros first last r; cbn [fchain_loop Nat.add].
  - destruct k; cbn [fchain_loop]; destruct (Nat.eqb _ _); auto; discriminate.
  - destruct (Nat.eqb _ _); auto. destruct (_ =? fo); apply IH.
Qed.
Lemma polygon_more f l poly k fuel r :
  fintersect_polygon fuel f l poly = Ok r -> fintersect_polygon (fuel + k) f l poly = Ok r.
Proof.
  unfold fintersect_polygon, assert_then. destruct (negb _); [|discriminate].
  destruct (fextreme_vertex f _ poly) as [R| | | |]; try discriminate. cbn [bind].
  destruct (fextreme_vertex f _ poly) as [L| | | |]; try discriminate. cbn [bind].
  destruct (_ || _); [auto|]. unfold fintersect_chain.
  destruct (fchain_loop fuel f (fk_line l) poly L R _) as [c1| | | |] eqn:C1; try discriminate.
  rewrite (chain_more _ _ _ _ k _ _ _ _ C1). destruct c1 as [u1 v1]. cbn [bind].
  destruct (fchain_loop fuel f (fk_line l) poly R L _) as [c2| | | |] eqn:C2; try discriminate.
  rewrite (chain_more _ _ _ _ k _ _ _ _ C2). auto.
Qed.

(** The two results are the numbers nearest to the ends of the chord, those on the line in their order;
    no steps beyond the number of vertices are needed. *)
Theorem C136_chord : forall f e ka kb a b poly, fine f e -> convex poly -> a <> b -> fit_twice f (a :: b :: poly) ->
  exists r, (forall fuel, (length poly <= fuel)%nat ->
      fintersect_polygon fuel f (fmake_kline f (grid e a) (grid e b) (vk ka) (vk kb)) (map (grid e) poly) = Ok (map (to_num f) r)) /\
    ((exists t1 t2, r = filter (on_line ka kb) [t1; t2] /\ (t1 <= t2)%Q
        /\ forall s, not_right poly a b s <-> (t1 <= s /\ s <= t2)%Q)
     \/ (r = [] /\ forall s, ~ not_right poly a b s)).
Proof.
  intros f e ka kb a b poly (Hp & E1 & E2 & M1 & M2) C NE (x0 & y0 & W & H & B & HW & HH & HA).
  pose proof (B a ltac:(now left)) as Ba. pose proof (B b ltac:(right; now left)) as Bb.
  assert (Bp : forall q, In q poly -> in_box x0 y0 W H q) by (intros q I; apply B; right; now right).
  assert (NZ : lvec (make_line a b) <> P 0 0).
  { unfold make_line. cbn [lvec]. intro E. apply NE. now apply psub_zero. }
  assert (R : exists r, intersect_polygon ka kb (make_line a b) poly = Ok r /\
    ((exists t1 t2, r = filter (on_line ka kb) [t1; t2] /\ (t1 <= t2)%Q /\ forall s, not_right poly a b s <-> (t1 <= s /\ s <= t2)%Q)
     \/ (r = [] /\ forall s, ~ not_right poly a b s))).
  { destruct (PropExtreme.C96_chord ka kb (make_line a b) poly C NZ) as [(t1 & t2 & E & L & I)|(E & I)]; eexists; (split; [exact E|]).
    - left. exists t1, t2. split; [reflexivity|]. split; [exact L|]. intro s. rewrite not_right_iff. apply I.
    - right. split; [reflexivity|]. intros s. rewrite not_right_iff. apply I. }
  destruct R as (r & E & RR). exists r. split; [|exact RR]. intros fuel F.
  replace fuel with (length poly + (fuel - length poly))%nat by lia. apply polygon_more.
  exact (fpolygon_grid f e Hp E1 E2 M1 M2 x0 y0 W H HW HH a b ka kb poly HA Ba Bb Bp r C NE E).
Qed.

(** ** Arbitrary numbers *)
(** With at least two vertices the searches end with positions of vertices, also with NaN and infinity. *)
Theorem C136_total : forall f dir p poly, (2 <= length poly)%nat ->
  (exists m, fextreme_vertex f dir poly = Ok m /\ (m < length poly)%nat) /\
  exists l r, fpolygon_tangents f p poly = Ok (l, r) /\ (l < length poly)%nat /\ (r < length poly)%nat.
Proof.
  intros f dir p poly L. split; [now apply fextreme_total|]. unfold fpolygon_tangents.
  destruct (fextreme_total f (fun x => fpsub f x p) poly L) as (l & -> & Bl).
  destruct (fextreme_total f (fun x => fpsub f p x) poly L) as (r & -> & Br). cbn [bind]. eauto.
Qed.

(** If both searches end with the same vertex, the search of the chord does not end. *)
Lemma chain_stuck f l poly i fuel : (2 <= length poly)%nat -> (i < length poly)%nat ->
  fchain_loop fuel f l poly i i (forient_pl f (fvertex poly i) l) = NoFuel.
Proof.
  intros N I. set (o := forient_pl f (fvertex poly i) l).
  induction fuel as [|fuel IH]; cbn [fchain_loop];
    (destruct (Nat.eqb_spec (cyclic_plus (length poly) i 1) i) as [E|_];
      [exfalso; unfold cyclic_plus in E; destruct (Nat.leb_spec (length poly - i) 1); lia|]); [reflexivity|].
  assert (M : cyclic_plus (length poly) i (cyclic_minus (length poly) i i / 2) = i).
  { unfold cyclic_minus. rewrite Nat.leb_refl, Nat.sub_diag. change (0 / 2)%nat with 0%nat. unfold cyclic_plus.
    destruct (Nat.leb_spec (length poly - i) 0); lia. }
  rewrite M. fold o. rewrite Z.eqb_refl. exact IH.
Qed.
Lemma stuck f l poly i fuel : (2 <= length poly)%nat -> fpeq (flvec (fk_line l)) fzero = false ->
  fextreme_vertex f (fun _ => flvec (fk_line l)) poly = Ok i ->
  fextreme_vertex f (fun _ => fpneg (flvec (fk_line l))) poly = Ok i -> (i < length poly)%nat ->
  forient_pl f (fvertex poly i) (fk_line l) = o_collinear -> fintersect_polygon fuel f l poly = NoFuel.
Proof.
  intros N D R L I O. unfold fintersect_polygon, assert_then. rewrite D, R. cbn [negb bind]. rewrite L. cbn [bind].
  pose proof (chain_stuck f (fk_line l) poly i fuel N I) as X. rewrite O in *. cbn [o_collinear o_left o_right].
  unfold fintersect_chain. rewrite X. reflexivity.
Qed.

(** The triangle (1, 1), (2.5, 2.5), (0.3, 0.30000000000000004) of doubles, with a factor 2^54. *)
Definition thin : list pt :=
  [P 18014398509481984 18014398509481984; P 45035996273704960 45035996273704960; P 5404319552844595 5404319552844596].
Lemma thin_convex : convex thin.
Proof.
  split; [cbn; lia|]. intros i j k I K. cbn in K.
  assert (i = 0 /\ j = 1 /\ k = 2)%nat as (-> & -> & ->) by lia. reflexivity.
Qed.
(** Finding: for a thin triangle of doubles about 1 differences round onto one line; the wrong vertex is
    reported as extreme, the search of antipodal vertices reads past the end and the search of a chord
    does not end. *)
Theorem C136_thin_refuted : convex thin /\
  (forall q, In q thin -> representable double (inject_Z (px q) * 2 ^ (-54)) /\ representable double (inject_Z (py q) * 2 ^ (-54))) /\
  (exists m w, fextreme_vertex double (fun _ => grid 0 (P (-1) (-1))) (map (grid (-54)) thin) = Ok m /\ In w thin /\
     (-1) * (py w - py (vertex thin m)) - (-1) * (px w - px (vertex thin m)) < 0) /\
  fantipodal_vertices double (map (grid (-54)) thin) = UB /\
  forall fuel, fintersect_polygon fuel double (fmake_kline double (grid 0 (P 0 0)) (grid 0 (P 1 1)) VecModel.Free VecModel.Free)
    (map (grid (-54)) thin) = NoFuel.
Proof.
  split; [apply thin_convex|]. split.
  { assert (R : forall m s, Z.abs m < 2 ^ 53 -> 0 <= s -> representable double (inject_Z (m * 2 ^ s) * 2 ^ (-54))).
    { intros m s M S. exists m, (s - 54). split.
      - rewrite inject_Z_mult. rewrite two_Z by exact S. rewrite <- Qmult_assoc, <- two_plus. reflexivity.
      - split; [exact M|cbn [emin double]; lia]. }
    intros q I. repeat (destruct I as [<-|I]; [cbn [px py]|]); [| | |destruct I].
    - change 18014398509481984 with (1 * 2 ^ 54). split; apply R; cbn; lia.
    - change 45035996273704960 with (5 * 2 ^ 53). split; apply R; cbn; lia.
    - change 5404319552844595 with (5404319552844595 * 2 ^ 0). change 5404319552844596 with (5404319552844596 * 2 ^ 0).
      split; apply R; cbn; lia. }
  split. { exists 0%nat, (vertex thin 2). split; [vm_compute; reflexivity|]. split; [right; right; now left|reflexivity]. }
  split; [vm_compute; reflexivity|]. intro fuel. apply (stuck double _ _ 0%nat); vm_compute; auto.
Qed.
(** Finding: the same for small polygons, whose products underflow; for large ones the parameters of
    the chord are NaN. *)
Theorem C136_range_refuted : convex PropPoly.pentagon /\
  fantipodal_vertices double (map (grid (-600)) PropPoly.pentagon) = UB /\
  (forall fuel, fintersect_polygon fuel double
     (fmake_kline double (grid (-600) (P 0 2)) (grid (-600) (P 1 2)) VecModel.Free VecModel.Free) (map (grid (-600)) PropPoly.pentagon) = NoFuel) /\
  fpolygon_tangents double (grid (-600) (P 10 0)) (map (grid (-600)) PropPoly.pentagon) = Ok (0, 0)%nat /\
  fintersect_polygon 5 double
     (fmake_kline double (grid 600 (P 0 2)) (grid 600 (P 1 2)) VecModel.Free VecModel.Free) (map (grid 600) PropPoly.pentagon) = Ok [NaN; NaN].
Proof.
  split; [apply PropPoly.pentagon_convex|]. split; [vm_compute; reflexivity|].
  split. { intro fuel. apply (stuck double _ _ 0%nat); vm_compute; auto. }
  split; vm_compute; reflexivity.
Qed.

Lemma moved_fit a b : 90 <= px a <= 120 -> 90 <= py a <= 120 -> 90 <= px b <= 120 -> 90 <= py b <= 120 ->
  fit_twice double (a :: b :: moved) /\ fit double (a :: moved) /\ fit double moved.
Proof.
  intros A1 A2 B1 B2. pose proof (moved_box a b A1 A2 B1 B2) as X.
  assert (S : 30 <= 2 ^ prec double /\ 2 * (30 * 30) <= 2 ^ prec double /\ 30 * 30 <= 2 ^ prec double) by (cbn; lia).
  split; [|split]; exists 90, 90, 30, 30; (split; [|tauto]); intros q I; apply X; [exact I| |].
  - destruct I as [<-|I]; [now left|right; now right].
  - right. now right.
Qed.
Example C136_case : fine double (-10) /\ convex moved /\ fit_direction double (P 1 0) moved
  /\ fit_twice double (P 100 102 :: P 101 102 :: moved) /\ fit double (P 110 100 :: moved) /\ fit double moved
  /\ (exists a b, poly_edge moved a b /\ turn a b (P 110 100) < 0)
  /\ fextreme_vertex double (fun _ => grid (-10) (P 1 0)) (map (grid (-10)) moved) = Ok 1%nat
  /\ fpolygon_tangents double (grid (-10) (P 110 100)) (map (grid (-10)) moved) = Ok (3, 1)%nat
  /\ fantipodal_vertices double (map (grid (-10)) moved) = Ok [(0, 1); (0, 2); (0, 3); (1, 3); (1, 4); (2, 4)]%nat
  /\ fintersect_polygon 5 double (fmake_kline double (grid (-10) (P 100 102)) (grid (-10) (P 101 102)) VecModel.Free VecModel.Free)
       (map (grid (-10)) moved) = Ok [Fin (-1 # 2); Fin (11 # 2)]
  /\ fintersect_polygon 5 double (fmake_kline double (grid (-10) (P 100 102)) (grid (-10) (P 101 102)) VecModel.Closed VecModel.Free)
       (map (grid (-10)) moved) = Ok [Fin (11 # 2)].
Proof.
  split; [repeat split; vm_compute; discriminate|]. split; [apply moved_convex|].
  split. { destruct (moved_fit (P 100 102) (P 101 102)) as (_ & _ & x0 & y0 & W & H & B & _); try (cbn [px py]; lia).
    exists 90, 90, 30, 30. split; [|cbn; lia].
    intros q I. apply (moved_box (P 100 102) (P 101 102)); try (cbn [px py]; lia). right. now right. }
  split; [apply moved_fit; cbn [px py]; lia|].
  split; [apply (moved_fit (P 110 100) (P 110 100)); cbn [px py]; lia|].
  split; [apply (moved_fit (P 110 100) (P 110 100)); cbn [px py]; lia|].
  split. { exists (P 104 99), (P 106 103). split; [apply moved_edge|reflexivity]. }
  repeat split; vm_compute; reflexivity.
Qed.
Example C136_total_case :
  fextreme_vertex double (fun _ => FP NaN NaN) [grid 0 (P 0 0); FP (Inf false) NaN; grid 0 (P 1 2)] = Ok 0%nat
  /\ fextreme_vertex double (fun _ => grid 0 (P 1 0)) [grid 0 (P 0 5); FP NaN NaN; grid 0 (P 1 2); grid 0 (P 3 3)] = Ok 0%nat.
Proof. split; vm_compute; reflexivity. Qed.
Print Assumptions C136_extreme.
Print Assumptions C136_tangents.
Print Assumptions C136_antipodal.
Print Assumptions C136_chord.
Print Assumptions C136_total.
Print Assumptions C136_thin_refuted.
Print Assumptions C136_range_refuted.
