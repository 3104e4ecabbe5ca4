(** Proofs about convex polygons over floating point numbers: FExtModel.v. *)
From Coq Require Import ZArith QArith Qpower List Bool Lia Lqa.
From Verif Require Import Outcome FGeoModel FGeoProofs GeoModel HullProofs MGeoProofs PolyModel PolyProofs WindProofs ExtremeModel ExtremeProofs
  ChordModel ChordProofs FPolyModel FPolyProofs FCrossModel FLineModel FLineProofs FExtModel.
From Verif Require VecModel CrossModel PropMExt.
Import ListNotations.
Local Open Scope Z_scope.

(** ** The search is the same if comparisons are exact *)
Section Search.
  Variable f : format.
  Variable e : Z.
  Variable fdir : fpt -> fpt.
  Variable dir : pt -> pt.
  Variable poly : list pt.
  Hypothesis N : poly <> [].
  Hypothesis X : forall v w, In v poly -> In w poly -> fvertex_cmp f fdir (grid e v) (grid e w) = vertex_cmp dir v w.

  Lemma fis_extreme_grid i : fis_extreme f fdir (map (grid e) poly) i = is_extreme dir poly i.
  Proof.
    unfold fis_extreme, is_extreme. rewrite !fcyc_grid by exact N. rewrite !X by (apply cyc_In; exact N). reflexivity.
  Qed.
  Lemma fextreme_loop_grid fuel : forall first s last, (first < last <= length poly)%nat ->
    fextreme_loop fuel f fdir (map (grid e) poly) first s last = extreme_loop fuel dir poly first s last.
  Proof.
    induction fuel as [|fuel IH]; intros first s last B; cbn [fextreme_loop extreme_loop];
      (destruct (Nat.eqb_spec (first + 1) last) as [E|E]; [reflexivity|]); [reflexivity|].
    assert (M : (first + (last - first) / 2 < last)%nat).
    { assert ((last - first) / 2 < last - first)%nat by (apply Nat.div_lt; lia). lia. }
    assert (M' : (0 < (last - first) / 2)%nat) by (apply Nat.div_str_pos; lia).
    rewrite fis_extreme_grid. destruct (is_extreme dir poly _) as [ok ms]. destruct ok; [reflexivity|].
    rewrite !fvertex_grid by lia. rewrite X by (unfold vertex; apply nth_In; lia).
    destruct (if negb (s =? ms) then s <? ms else _); apply IH; lia.
  Qed.
  Lemma fextreme_grid : fextreme_vertex f fdir (map (grid e) poly) = extreme_vertex dir poly.
  Proof.
    unfold fextreme_vertex, extreme_vertex. rewrite map_length. destruct (length poly <=? 1)%nat eqn:E; [reflexivity|]. apply Nat.leb_gt in E.
    rewrite fis_extreme_grid. destruct (is_extreme dir poly 0) as [ok s]. destruct ok; [reflexivity|].
    apply fextreme_loop_grid. lia.
  Qed.
End Search.

(** With at least two vertices there is a result, whatever the numbers are. *)
Lemma fextreme_loop_total f dir poly fuel : forall first s last, (first < last)%nat -> (last - first <= S fuel)%nat ->
  exists m, fextreme_loop fuel f dir poly first s last = Ok m /\ (first <= m < last)%nat.
Proof.
  induction fuel as [|fuel IH]; intros first s last B F; cbn [fextreme_loop];
    (destruct (Nat.eqb_spec (first + 1) last) as [E|E]; [exists first; split; [reflexivity|lia]|]); [lia|].
  assert (M : ((last - first) / 2 < last - first)%nat) by (apply Nat.div_lt; lia).
  assert (M' : (0 < (last - first) / 2)%nat) by (apply Nat.div_str_pos; lia).
  set (mid := (first + (last - first) / 2)%nat) in *. destruct (fis_extreme f dir poly mid) as [ok ms].
  destruct ok; [exists mid; split; [reflexivity|lia]|].
  destruct (if negb (s =? ms) then _ else _).
  - destruct (IH first s mid) as (m & Em & Bm); [lia|lia|]. exists m. split; [exact Em|lia].
  - destruct (IH mid ms last) as (m & Em & Bm); [lia|lia|]. exists m. split; [exact Em|lia].
Qed.
Lemma fextreme_total f dir poly : (2 <= length poly)%nat -> exists m, fextreme_vertex f dir poly = Ok m /\ (m < length poly)%nat.
Proof.
  intro L. unfold fextreme_vertex. destruct (Nat.leb_spec (length poly) 1) as [X|X]; [lia|].
  destruct (fis_extreme f dir poly 0) as [ok s]. destruct ok; [exists 0%nat; split; [reflexivity|lia]|].
  destruct (fextreme_loop_total f dir poly (length poly) 0 s (length poly)) as (m & E & B); [lia|lia|].
  exists m. split; [exact E|lia].
Qed.

(** ** Exact comparisons on a grid *)
Section Grid.
  Variable f : format.
  Variable e : Z.
  Hypothesis Hp : 1 <= prec f.
  Hypothesis He : emin f <= e.
  Hypothesis He2 : emin f <= e + e.
  Hypothesis Hm : prec f + e < emax f.
  Hypothesis Hm2 : prec f + (e + e) < emax f.

  Lemma forient_pat l r x y : Z.abs (px r * py l) <= 2 ^ prec f -> Z.abs (py r * px l) <= 2 ^ prec f ->
    pat e l x -> pat e r y -> forient f x y = orient l r.
  Proof.
    intros A B [X1 X2] [Y1 Y2]. unfold forient, farea, orient, area.
    apply (fsub_sgn_at f Hp (e + e)); auto; apply fmul_at; auto.
  Qed.
  Lemma neg_pat v x : pat e v x -> pat e (psub (P 0 0) v) (fpneg x).
  Proof.
    intros [(q & E1 & F1) (r & E2 & F2)]. unfold fpneg. rewrite E1, E2. cbn [neg_num].
    split; cbn [psub px py fx fy]; eexists; (split; [reflexivity|]); rewrite Z.sub_0_l, inject_Z_opp, ?F1, ?F2; ring.
  Qed.

  Variables x0 y0 W H : Z.
  Hypothesis HW : W <= 2 ^ prec f.
  Hypothesis HH : H <= 2 ^ prec f.
  Lemma diff_pat a b : in_box x0 y0 W H a -> in_box x0 y0 W H b -> pat e (psub a b) (fpsub f (grid e a) (grid e b)).
  Proof.
    intros A B. unfold in_box in *. destruct (pat_grid e a) as [X1 X2], (pat_grid e b) as [Y1 Y2].
    split; cbn [fpsub fx fy psub px py]; apply fsub_at; auto; lia.
  Qed.
  Lemma diff_brief a b : in_box x0 y0 W H a -> in_box x0 y0 W H b -> Z.abs (px (psub a b)) <= W /\ Z.abs (py (psub a b)) <= H.
  Proof. unfold in_box. cbn [psub px py]. lia. Qed.

  (** Directions that do not depend on the vertex *)
  Lemma fcmp_const d x v w : pat e d x -> Z.abs (px d) * H <= 2 ^ prec f -> Z.abs (py d) * W <= 2 ^ prec f ->
    in_box x0 y0 W H v -> in_box x0 y0 W H w ->
    fvertex_cmp f (fun _ => x) (grid e v) (grid e w) = vertex_cmp (fun _ => d) v w.
  Proof.
    intros D D1 D2 V Wi. unfold fvertex_cmp, vertex_cmp. destruct (diff_brief w v Wi V) as [B1 B2].
    apply forient_pat; [| |exact D|now apply diff_pat]; rewrite Z.abs_mul; nia.
  Qed.
  (** Differences *)
  Lemma forient_diff a b c d : W * H <= 2 ^ prec f ->
    in_box x0 y0 W H a -> in_box x0 y0 W H b -> in_box x0 y0 W H c -> in_box x0 y0 W H d ->
    forient f (fpsub f (grid e a) (grid e b)) (fpsub f (grid e c) (grid e d)) = orient (psub a b) (psub c d).
  Proof.
    intros HA A B C D. destruct (diff_brief a b A B) as [A1 A2], (diff_brief c d C D) as [C1 C2].
    pose proof (abs_mul_le _ _ _ _ C1 A2). pose proof (abs_mul_le _ _ _ _ C2 A1).
    apply forient_pat; [lia|lia|now apply diff_pat|now apply diff_pat].
  Qed.

  (** Antipodal vertices *)
  Lemma fantipodal_grid poly : W * H <= 2 ^ prec f -> (forall q, In q poly -> in_box x0 y0 W H q) ->
    fantipodal_vertices f (map (grid e) poly) = antipodal_vertices poly.
  Proof.
    intros HA B. assert (LB : forall i, (i < length poly)%nat -> in_box x0 y0 W H (vertex poly i)).
    { intros i L. apply B. unfold vertex. now apply nth_In. }
    assert (Lp : forall fuel i j, (j <= length poly)%nat ->
      fantipodal_loop fuel f (map (grid e) poly) i j = antipodal_loop fuel poly i j).
    { induction fuel as [|fuel IH]; intros i j J; cbn [fantipodal_loop antipodal_loop]; rewrite map_length;
        (destruct (Nat.eqb_spec j (length poly)) as [E|E]; [reflexivity|]); [reflexivity|].
      destruct (Nat.leb_spec (length poly) (i + 1)) as [L|L]; [reflexivity|].
      assert (K : ((if (j + 1 =? length poly)%nat then 0 else j + 1) < length poly)%nat).
      { destruct (Nat.eqb_spec (j + 1) (length poly)); lia. }
      rewrite !fvertex_grid by lia. unfold fleft_turn, left_turn. rewrite forient_diff by (try exact HA; apply LB; lia).
      destruct (orient _ _ =? o_left); rewrite IH by lia; reflexivity. }
    unfold fantipodal_vertices, antipodal_vertices. destruct poly as [|p poly]; [reflexivity|]. cbn [map].
    change (grid e p :: map (grid e) poly) with (map (grid e) (p :: poly)). rewrite map_length. apply Lp. cbn [length]. lia.
  Qed.

  (** Chords *)
  Definition vk (k : endpoint) : VecModel.endpoint :=
    match k with Free => VecModel.Free | Closed => VecModel.Closed | Open => VecModel.Open end.
  Lemma endpoint_isat s k a b x y : isat s a x -> isat s b y ->
    CrossModel.endpoint_test nless (vk k) x y = endpoint_test k a b.
  Proof. intros A B. rewrite (test_isat s (vk k) a b x y A B). destruct k; reflexivity. Qed.
  Lemma area_pat u v x y : 2 * (W * H) <= 2 ^ prec f ->
    Z.abs (px u) <= W -> Z.abs (py u) <= H -> Z.abs (px v) <= W -> Z.abs (py v) <= H ->
    pat e u x -> pat e v y -> isat (e + e) (area u v) (farea f x y).
  Proof.
    intros HA U1 U2 V1 V2. apply (area_isat f e Hp He2 Hm2 W H HA u v x y); split; assumption.
  Qed.
  Lemma isat_neg s n x : isat s n x -> isat s (- n) (neg_num x).
  Proof. intros (q & -> & E). exists (- q)%Q. split; [reflexivity|]. rewrite E, inject_Z_opp. ring. Qed.

  Section Line.
    Variables a b : pt.
    Variables ka kb : endpoint.
    Variable poly : list pt.
    Hypothesis HA : 2 * (W * H) <= 2 ^ prec f.
    Hypothesis Ba : in_box x0 y0 W H a.
    Hypothesis Bb : in_box x0 y0 W H b.
    Hypothesis B : forall q, In q poly -> in_box x0 y0 W H q.
    Let l := make_line a b.
    Let g := fmake_line f (grid e a) (grid e b).

    Lemma WH_le : 0 <= W /\ 0 <= H /\ W * H <= 2 ^ prec f.
    Proof. unfold in_box in *. assert (0 <= W /\ 0 <= H) by lia. nia. Qed.
    Lemma fcross_grid c d : in_box x0 y0 W H c -> in_box x0 y0 W H d ->
      fintersect_scalar f (FK g (vk ka) (vk kb)) (fmake_kline f (grid e c) (grid e d) VecModel.Free VecModel.Free)
      = map (to_num f) (cross_scalar ka kb l (make_line c d)).
    Proof.
      intros C D. unfold fintersect_scalar, cross_scalar. cbn [fk_line fmake_kline fmake_line flvec flbegin g l make_line lbegin lvec].
      destruct (diff_brief d c D C) as [D1 D2], (diff_brief b a Bb Ba) as [B1 B2], (diff_brief a c Ba C) as [A1 A2].
      assert (T : isat (e + e) (area (psub d c) (psub b a)) (farea f (fpsub f (grid e d) (grid e c)) (fpsub f (grid e b) (grid e a))))
        by (apply area_pat; auto; now apply diff_pat).
      assert (L : isat (e + e) (area (psub a c) (psub d c)) (farea f (fpsub f (grid e a) (grid e c)) (fpsub f (grid e d) (grid e c))))
        by (apply area_pat; auto; now apply diff_pat).
      rewrite (neq_isat _ _ _ T). destruct (Z.eqb_spec (area (psub d c) (psub b a)) 0) as [Z0|Z0]; [reflexivity|].
      unfold fcross_test, fline_test, line_test. cbn [fk_begin fk_end CrossModel.endpoint_test fmake_kline].
      rewrite (nless_isat _ _ _ _ _ T (isat_zero (e + e))).
      rewrite !(endpoint_isat (e + e) ka 0 _ _ _ (isat_zero _) L), !(endpoint_isat (e + e) ka 0 _ _ _ (isat_zero _) (isat_neg _ _ _ L)).
      rewrite (endpoint_isat (e + e) kb _ _ _ _ L T), (endpoint_isat (e + e) kb _ _ _ _ (isat_neg _ _ _ L) (isat_neg _ _ _ T)).
      rewrite !andb_true_r.
      destruct (negb (if area (psub d c) (psub b a) <? 0 then _ else _)); [reflexivity|]. cbn [map]. f_equal.
      now apply fdiv_isat with (e + e).
    Qed.
    Lemma forient_pl_grid v : in_box x0 y0 W H v -> forient_pl f (grid e v) g = orient_pl v l.
    Proof. intro V. destruct WH_le as (_ & _ & HA'). unfold forient_pl, orient_pl, g, l. cbn [fmake_line flbegin flvec make_line lbegin lvec]. now apply forient_diff. Qed.
    Lemma fchain_grid fo fuel : forall first last, (first < length poly)%nat -> (last < length poly)%nat ->
      fchain_loop fuel f g (map (grid e) poly) first last fo = chain_loop fuel l poly first last fo /\
      forall u v, chain_loop fuel l poly first last fo = Ok (u, v) -> (u < length poly)%nat /\ (v < length poly)%nat.
    Proof.
      induction fuel as [|fuel IH]; intros first last F L; cbn [fchain_loop chain_loop]; rewrite map_length;
        (destruct (Nat.eqb_spec (cyclic_plus (length poly) first 1) last) as [E|E];
          [split; [reflexivity|]; intros u v X; injection X as <- <-; auto|]); [split; [reflexivity|discriminate]|].
      set (m := cyclic_plus (length poly) first (cyclic_minus (length poly) last first / 2)).
      assert (M : (m < length poly)%nat).
      { assert (D : (cyclic_minus (length poly) last first < length poly)%nat).
        { unfold cyclic_minus. destruct (Nat.leb_spec first last); lia. }
        assert (D2 : (cyclic_minus (length poly) last first / 2 <= cyclic_minus (length poly) last first)%nat) by (apply Nat.div_le_upper_bound; lia).
        unfold m, cyclic_plus. destruct (Nat.leb_spec (length poly - first) (cyclic_minus (length poly) last first / 2)); lia. }
      rewrite fvertex_grid by exact M. rewrite forient_pl_grid by (apply B; unfold vertex; now apply nth_In).
      destruct (orient_pl (vertex poly m) l =? fo); apply IH; assumption.
    Qed.
    Lemma fpolygon_grid r : convex poly -> a <> b -> intersect_polygon ka kb l poly = Ok r ->
      fintersect_polygon (length poly) f (FK g (vk ka) (vk kb)) (map (grid e) poly) = Ok (map (to_num f) r).
    Proof.
      intros C NE. destruct WH_le as (W0 & H0 & HA'). destruct (diff_brief b a Bb Ba) as [S1 S2].
      pose proof (diff_pat b a Bb Ba) as PV.
      unfold intersect_polygon, fintersect_polygon, assert_then. cbn [fk_line].
      assert (NZ : lvec l <> P 0 0).
      { unfold l, make_line. cbn [lvec]. intro E. apply NE. now apply PropMExt.psub_zero. }
      assert (Q : fpeq (flvec g) fzero = peq (lvec l) (P 0 0)).
      { unfold fpeq, peq, g, l. cbn [fmake_line flvec make_line lvec px py fzero fx fy].
        destruct PV as [P1 P2]. now rewrite (neq_isat _ _ _ P1), (neq_isat _ _ _ P2). }
      rewrite Q. destruct (negb (peq (lvec l) (P 0 0))); [|discriminate].
      pose proof (PropMExt.convex_nil poly C) as NN.
      assert (IV : forall i, (i < length poly)%nat -> in_box x0 y0 W H (vertex poly i)).
      { intros i I. apply B. unfold vertex. now apply nth_In. }
      rewrite (fextreme_grid f e _ (fun _ => lvec l) poly NN).
      2:{ intros v w V Wi. apply fcmp_const; [exact PV| | |now apply B|now apply B]; unfold l; cbn [make_line lvec]; nia. }
      rewrite (fextreme_grid f e _ (fun _ => psub (P 0 0) (lvec l)) poly NN).
      2:{ intros v w V Wi. apply fcmp_const; [now apply neg_pat| | |now apply B|now apply B]; unfold l; cbn [make_line lvec];
          cbn [psub px py] in S1, S2 |- *; rewrite Z.sub_0_l, Z.abs_opp; nia. }
      destruct (extreme_direction (lvec l) poly C NZ) as (R & ER & RB & _).
      destruct (extreme_direction (psub (P 0 0) (lvec l)) poly C) as (L & EL & LB & _).
      { intros E. apply NZ. destruct (lvec l) as [x y]. unfold psub in E. cbn [px py] in E. injection E as E1 E2. f_equal; lia. }
      rewrite ER. cbn [bind]. rewrite EL. cbn [bind]. rewrite !fvertex_grid by assumption. rewrite !forient_pl_grid by now apply IV.
      destruct (_ || _).
      { intro X. injection X as <-. reflexivity. }
      unfold intersect_chain, fintersect_chain. cbn [fk_line].
      destruct (fchain_grid (orient_pl (vertex poly L) l) (length poly) L R LB RB) as [-> B1].
      destruct (fchain_grid (orient_pl (vertex poly R) l) (length poly) R L RB LB) as [-> B2].
      destruct (chain_loop _ l poly L R _) as [[u1 v1]| | | |]; try discriminate. cbn [bind].
      destruct (chain_loop _ l poly R L _) as [[u2 v2]| | | |]; try discriminate. cbn [bind].
      destruct (B1 _ _ eq_refl) as [U1 V1]. destruct (B2 _ _ eq_refl) as [U2 V2].
      rewrite !fvertex_grid by assumption. rewrite !fcross_grid by now apply IV.
      intro X. injection X as <-. now rewrite map_app.
    Qed.
  End Line.
End Grid.
