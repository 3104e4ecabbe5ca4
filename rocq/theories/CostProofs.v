(** Proofs about the costs of geometric searches: CostModel.v. *)
From Coq Require Import ZArith List Bool Lia Permutation Sorted.
From Verif Require Import Outcome GeoModel HullProofs PolyModel PolyProofs WindProofs ExtremeModel ExtremeProofs ChordModel ChordProofs NearestProofs CostModel.
Import ListNotations.
Local Open Scope Z_scope.

Lemma half_log k k' : (2 <= k)%nat -> (0 < k' <= k - k / 2)%nat -> (S (Nat.log2_up k') <= Nat.log2_up k)%nat.
Proof.
  intros K L. pose proof (Nat.log2_up_spec k ltac:(lia)) as [_ U]. pose proof (Nat.log2_up_pos k ltac:(lia)) as Q.
  destruct (Nat.log2_up k) as [|b]; [lia|]. rewrite Nat.pow_succ_r' in U.
  pose proof (Nat.div_mod k 2 ltac:(lia)). pose proof (Nat.mod_upper_bound k 2 ltac:(lia)).
  apply le_n_S. apply Nat.log2_up_le_pow2; lia.
Qed.

(** ** Extreme vertex *)
Section Extreme.
  Variable dir : pt -> pt.
  Variable poly : list pt.

  Lemma is_extreme_cost i : exists c, is_extreme_c dir poly i = (is_extreme dir poly i, c) /\ (c <= 2)%nat.
  Proof.
    unfold is_extreme_c, is_extreme. cbv zeta. destruct (_ =? o_left); cbn [negb andb]; eexists; (split; [reflexivity|lia]).
  Qed.
  Lemma extreme_loop_cost fuel : forall first s last, (first < last)%nat ->
    omap fst (extreme_loop_c fuel dir poly first s last) = extreme_loop fuel dir poly first s last /\
    forall r c, extreme_loop_c fuel dir poly first s last = Ok (r, c) -> (c <= 3 * Nat.log2_up (last - first))%nat.
  Proof.
    induction fuel as [|fuel IH]; intros first s last B; cbn [extreme_loop_c extreme_loop];
      (destruct (Nat.eqb_spec (first + 1) last) as [E|E]; [split; [reflexivity|]; intros r c X; injection X as _ <-; lia|]);
      [split; [reflexivity|discriminate]|].
    assert (M : ((last - first) / 2 < last - first)%nat) by (apply Nat.div_lt; lia).
    assert (M' : (0 < (last - first) / 2)%nat) by (apply Nat.div_str_pos; lia).
    pose proof (Nat.div_mod (last - first) 2 ltac:(lia)) as DM.
    set (mid := (first + (last - first) / 2)%nat) in *. destruct (is_extreme_cost mid) as (c0 & -> & C0).
    destruct (is_extreme dir poly mid) as [ok ms]. destruct ok.
    { split; [reflexivity|]. intros r c X. injection X as _ <-. pose proof (Nat.log2_up_pos (last - first) ltac:(lia)). lia. }
    destruct (IH first s mid ltac:(lia)) as [E1 B1]. destruct (IH mid ms last ltac:(lia)) as [E2 B2].
    assert (L1 : (S (Nat.log2_up (mid - first)) <= Nat.log2_up (last - first))%nat) by (apply half_log; lia).
    assert (L2 : (S (Nat.log2_up (last - mid)) <= Nat.log2_up (last - first))%nat) by (apply half_log; lia).
    assert (G : forall (b : bool) c1, (c1 <= 1)%nat ->
      let m := do (r, c2) <- (if b then extreme_loop_c fuel dir poly first s mid else extreme_loop_c fuel dir poly mid ms last); Ok (r, (c0 + c1 + c2)%nat) in
      omap fst m = (if b then extreme_loop fuel dir poly first s mid else extreme_loop fuel dir poly mid ms last) /\
      forall r c, m = Ok (r, c) -> (c <= 3 * Nat.log2_up (last - first))%nat).
    { intros b c1 C1. destruct b.
      - rewrite <- E1. destruct (extreme_loop_c fuel dir poly first s mid) as [[r' c']| | | |]; cbn; (split; [reflexivity|]); try discriminate.
        intros r c X. injection X as _ <-. specialize (B1 _ _ eq_refl). lia.
      - rewrite <- E2. destruct (extreme_loop_c fuel dir poly mid ms last) as [[r' c']| | | |]; cbn; (split; [reflexivity|]); try discriminate.
        intros r c X. injection X as _ <-. specialize (B2 _ _ eq_refl). lia. }
    destruct (negb (s =? ms)); apply G; lia.
  Qed.
  Lemma extreme_cost : omap fst (extreme_vertex_c dir poly) = extreme_vertex dir poly /\
    forall r c, extreme_vertex_c dir poly = Ok (r, c) -> (c <= 3 * Nat.log2_up (length poly) + 2)%nat.
  Proof.
    unfold extreme_vertex_c, extreme_vertex. destruct (Nat.leb_spec (length poly) 1) as [L|L]; [split; [reflexivity|discriminate]|].
    destruct (is_extreme_cost 0) as (c0 & -> & C0). destruct (is_extreme dir poly 0) as [ok s]. destruct ok.
    { split; [reflexivity|]. intros r c X. injection X as _ <-. lia. }
    destruct (extreme_loop_cost (length poly) 0%nat s (length poly) ltac:(lia)) as [E B]. rewrite Nat.sub_0_r in B. rewrite <- E.
    destruct (extreme_loop_c _ _ _ _ _ _) as [[r' c']| | | |]; cbn; (split; [reflexivity|]); try discriminate.
    intros r c X. injection X as _ <-. specialize (B _ _ eq_refl). lia.
  Qed.
End Extreme.

Lemma tangents_cost p poly : omap fst (polygon_tangents_c p poly) = polygon_tangents p poly /\
  forall r c, polygon_tangents_c p poly = Ok (r, c) -> (c <= 6 * Nat.log2_up (length poly) + 4)%nat.
Proof.
  unfold polygon_tangents_c, polygon_tangents.
  destruct (extreme_cost (fun x => psub x p) poly) as [E1 B1]. destruct (extreme_cost (fun x => psub p x) poly) as [E2 B2].
  rewrite <- E1, <- E2.
  destruct (extreme_vertex_c (fun x => psub x p) poly) as [[r1 c1]| | | |]; cbn; try (split; [reflexivity|discriminate]).
  destruct (extreme_vertex_c (fun x => psub p x) poly) as [[r2 c2]| | | |]; cbn; try (split; [reflexivity|discriminate]).
  split; [reflexivity|]. intros r c X. injection X as _ <-. specialize (B1 _ _ eq_refl). specialize (B2 _ _ eq_refl). lia.
Qed.

(** ** Chord *)
Section Chord.
  Variable l : line.
  Variable poly : list pt.
  Let n := length poly.
  Lemma chain_cost fo fuel : forall first last, (first < n)%nat -> (last < n)%nat -> first <> last ->
    omap fst (chain_loop_c fuel l poly first last fo) = chain_loop fuel l poly first last fo /\
    forall r c, chain_loop_c fuel l poly first last fo = Ok (r, c) -> (c <= Nat.log2_up (cyclic_minus n last first))%nat.
  Proof.
    induction fuel as [|fuel IH]; intros first last F L N; cbn [chain_loop_c chain_loop]; fold n;
      (destruct (Nat.eqb_spec (cyclic_plus n first 1) last) as [E|E]; [split; [reflexivity|]; intros r c X; injection X as _ <-; lia|]);
      [split; [reflexivity|discriminate]|].
    set (k := cyclic_minus n last first).
    assert (K : (2 <= k < n)%nat).
    { unfold k, cyclic_minus, cyclic_plus in *. destruct (Nat.leb_spec first last), (Nat.leb_spec (n - first) 1); lia. }
    pose proof (Nat.div_mod k 2 ltac:(lia)) as DM. pose proof (Nat.mod_upper_bound k 2 ltac:(lia)) as MB.
    set (m := cyclic_plus n first (k / 2)).
    assert (KD : (last = first + k \/ last + n = first + k)%nat) by (unfold k, cyclic_minus; destruct (Nat.leb_spec first last); lia).
    assert (M : (m < n)%nat /\ m <> first /\ m <> last /\ cyclic_minus n m first = (k / 2)%nat /\ cyclic_minus n last m = (k - k / 2)%nat).
    { unfold m, cyclic_plus. clearbody k. assert (K2 : (1 <= k / 2 < k)%nat) by lia. set (h := (k / 2)%nat) in *. clearbody h. clear IH E DM MB m.
      unfold cyclic_minus. destruct (Nat.leb_spec (n - first) h).
      - repeat split; try lia.
        + destruct (Nat.leb_spec first (first + h - n)); lia.
        + destruct (Nat.leb_spec (first + h - n) last); lia.
      - repeat split; try lia.
        + destruct (Nat.leb_spec first (first + h)); lia.
        + destruct (Nat.leb_spec (first + h) last); lia. }
    destruct M as (M1 & M2 & M3 & M4 & M5).
    destruct (IH m last M1 L M3) as [E1 B1]. destruct (IH first m F M1 ltac:(congruence)) as [E2 B2]. rewrite M5 in B1. rewrite M4 in B2.
    assert (L1 : (S (Nat.log2_up (k - k / 2)) <= Nat.log2_up k)%nat) by (apply half_log; lia).
    assert (L2 : (S (Nat.log2_up (k / 2)) <= Nat.log2_up k)%nat) by (apply half_log; lia).
    destruct (orient_pl (vertex poly m) l =? fo).
    - rewrite <- E1. destruct (chain_loop_c fuel l poly m last fo) as [[r' c']| | | |]; cbn; (split; [reflexivity|]); try discriminate.
      intros r c X. injection X as _ <-. specialize (B1 _ _ eq_refl). lia.
    - rewrite <- E2. destruct (chain_loop_c fuel l poly first m fo) as [[r' c']| | | |]; cbn; (split; [reflexivity|]); try discriminate.
      intros r c X. injection X as _ <-. specialize (B2 _ _ eq_refl). lia.
  Qed.
  Lemma chord_cost kb ke : convex poly -> lvec l <> P 0 0 ->
    omap fst (intersect_polygon_c kb ke l poly) = intersect_polygon kb ke l poly /\
    forall r c, intersect_polygon_c kb ke l poly = Ok (r, c) -> (c <= 8 * Nat.log2_up n + 8)%nat.
  Proof.
    intros C ND. unfold intersect_polygon_c, intersect_polygon, assert_then.
    destruct (negb (peq (lvec l) (P 0 0))); [|split; [reflexivity|discriminate]].
    destruct (extreme_cost (fun _ => lvec l) poly) as [E1 B1].
    destruct (extreme_cost (fun _ => psub (P 0 0) (lvec l)) poly) as [E2 B2]. rewrite <- E1, <- E2.
    destruct (extreme_direction (lvec l) poly C ND) as (R & ER & RB & R1 & R2).
    destruct (extreme_direction (psub (P 0 0) (lvec l)) poly C) as (L & EL & LB & L1 & L2).
    { intros E. apply ND. destruct (lvec l) as [x y]. unfold psub in E. cbn [px py] in E. injection E as X1 X2. f_equal; lia. }
    rewrite ER in E1. rewrite EL in E2.
    assert (NE : L <> R).
    { intros ->. assert (NEG : forall v, area (psub (P 0 0) (lvec l)) v = - area (lvec l) v) by (intros; unfold area, psub; cbn [px py]; ring).
      specialize (L1 _ (V_in poly C (Z.of_nat R - 1))). rewrite !NEG in L1. lia. }
    destruct (extreme_vertex_c (fun _ => lvec l) poly) as [[r1 c1]| | | |]; try discriminate. injection E1 as ->.
    destruct (extreme_vertex_c (fun _ => psub (P 0 0) (lvec l)) poly) as [[r2 c2]| | | |]; try discriminate. injection E2 as ->.
    specialize (B1 _ _ eq_refl). specialize (B2 _ _ eq_refl). fold n in B1, B2. cbn [omap bind fst].
    destruct (_ || _).
    { split; [reflexivity|]. intros r c X. injection X as _ <-. lia. }
    unfold intersect_chain_c, intersect_chain.
    destruct (chain_cost (orient_pl (vertex poly L) l) (length poly) L R LB RB NE) as [E3 B3].
    destruct (chain_cost (orient_pl (vertex poly R) l) (length poly) R L RB LB ltac:(congruence)) as [E4 B4]. rewrite <- E3, <- E4.
    assert (U : forall i j, (i < n)%nat -> (j < n)%nat -> (Nat.log2_up (cyclic_minus n i j) <= Nat.log2_up n)%nat).
    { intros i j I J. apply Nat.log2_up_le_mono. unfold cyclic_minus. destruct (Nat.leb_spec j i); lia. }
    destruct (chain_loop_c _ l poly L R _) as [[[u v] c3]| | | |]; cbn; try (split; [reflexivity|discriminate]).
    destruct (chain_loop_c _ l poly R L _) as [[[u' v'] c4]| | | |]; cbn; try (split; [reflexivity|discriminate]).
    split; [reflexivity|]. intros r c X. injection X as _ <-. specialize (B3 _ _ eq_refl). specialize (B4 _ _ eq_refl).
    pose proof (U R L RB LB). pose proof (U L R LB RB). lia.
  Qed.
End Chord.

(** ** Convex hull *)
Lemma pop_cost p st : fst (pop_c p st) = pop p st /\ (snd (pop_c p st) + length (pop p st) <= length st + 1)%nat.
Proof.
  induction st as [|t st IH]; [split; [reflexivity|cbn; lia]|]. destruct st as [|o st]; [split; [reflexivity|cbn; lia]|].
  change (pop_c p (t :: o :: st)) with (if orient3 p t o =? o_right then (t :: o :: st, 1%nat) else let (st, c) := pop_c p (o :: st) in (st, S c)).
  change (pop p (t :: o :: st)) with (if orient3 p t o =? o_right then t :: o :: st else pop p (o :: st)).
  destruct (orient3 p t o =? o_right); [split; [reflexivity|cbn; lia]|].
  destruct (pop_c p (o :: st)) as [st' c]. cbn [fst snd] in *. destruct IH as [IH1 IH2]. split; [exact IH1|cbn [length] in *; lia].
Qed.
Lemma push_all_cost l : forall st c, fst (fold_left push_c l (st, c)) = fold_left push l st /\
  (snd (fold_left push_c l (st, c)) + length (fold_left push l st) <= c + length st + 2 * length l)%nat.
Proof.
  induction l as [|p l IH]; intros st c; [split; [reflexivity|cbn; lia]|]. cbn [fold_left length].
  destruct (pop_cost p st) as [E B]. unfold push_c at 2 4, push at 2 4. cbn [fst snd].
  destruct (pop_c p st) as [st' c']. cbn [fst snd] in E, B. subst st'.
  destruct (IH (p :: pop p st) (c + c')%nat) as [E1 B1]. split; [exact E1|]. cbn [length] in B1. lia.
Qed.
Lemma pop_nonempty p st : st <> [] -> (1 <= length (pop p st))%nat.
Proof.
  induction st as [|t st IH]; [congruence|]. intros _. destruct st as [|o st]; [cbn; lia|].
  cbn [pop]. destruct (_ =? o_right); [cbn; lia|]. now apply IH.
Qed.
Lemma filter_split {A} (f : A -> bool) l : (length (filter f l) + length (filter (fun x => negb (f x)) l) = length l)%nat.
Proof. induction l as [|x l IH]; [reflexivity|]. cbn. destruct (f x); cbn; lia. Qed.
Lemma hull_cost points : omap fst (convex_hull_c points) = convex_hull points /\
  forall r c, convex_hull_c points = Ok (r, c) -> (c <= 3 * length points)%nat.
Proof.
  destruct points as [|a [|b ps]]; try (split; [reflexivity|]; intros r c X; injection X as _ <-; cbn; lia).
  unfold convex_hull_c, convex_hull. set (points := a :: b :: ps).
  match goal with |- context [filter ?f points] => set (comp := f) end. set (upper := sort pgreater _).
  pose proof (filter_split comp points) as FS.
  assert (LU : length upper = length (filter (fun q => negb (comp q)) points)) by (apply Permutation_length, sort_perm).
  assert (LL : length (sort pless (filter comp points)) = length (filter comp points)) by (apply Permutation_length, sort_perm).
  clearbody points upper.
  destruct (sort pless (filter comp points)) as [|p0 [|p1 rest]]; try (split; [reflexivity|discriminate]).
  destruct (push_all_cost (rest ++ upper) [p1; p0] 0%nat) as [E B].
  destruct (fold_left push_c (rest ++ upper) ([p1; p0], 0%nat)) as [st c0]. cbn [fst snd] in E, B. subst st.
  set (st := fold_left push (rest ++ upper) [p1; p0]) in *.
  destruct (pop_cost p0 st) as [E' B']. destruct (pop_c p0 st) as [st' c']. cbn [fst snd] in E', B'. subst st'.
  split; [reflexivity|]. intros r c X. injection X as _ <-. rewrite app_length in B. cbn [length] in LL, B. lia.
Qed.

(** ** Closest pair *)
Section Strip.
  Context (mx d0 : Z).
  (** The points which can be compared with a point of height [y]. *)
  Definition near (y : Z) (q : pt) : bool :=
    ((px q - mx) * (px q - mx) <? d0) && ((py q <=? y) && ((y - py q) * (y - py q) <? d0)).
  Lemma near_spec y q : near y q = true <-> (px q - mx) * (px q - mx) < d0 /\ py q <= y /\ (y - py q) * (y - py q) < d0.
  Proof. unfold near. now rewrite !andb_true_iff, !Z.ltb_lt, Z.leb_le. Qed.
  Lemma strip_inner_cost p : forall tmp res, fst res <= d0 ->
    (forall q, In q tmp -> (px q - mx) * (px q - mx) < d0 /\ py q <= py p) ->
    fst (strip_inner_c p tmp res) = strip_inner p tmp res /\ fst (strip_inner p tmp res) <= fst res /\
    (snd (strip_inner_c p tmp res) <= 2 * length (filter (near (py p)) tmp) + 1)%nat.
  Proof.
    induction tmp as [|q tmp IH]; intros res D T; [cbn; split; [reflexivity|split; lia]|].
    destruct (T q (or_introl eq_refl)) as [T1 T2]. cbn [strip_inner_c strip_inner]. rewrite lt_dist_spec by lia.
    destruct (Z.ltb_spec ((py p - py q) * (py p - py q)) (fst res)) as [H|H]; cbn [negb]; [|cbn [fst snd]; split; [reflexivity|split; lia]].
    match goal with |- context [strip_inner p tmp ?x] => set (res' := x) end.
    assert (D' : fst res' <= fst res).
    { unfold res'. destruct (Z.ltb_spec (dist2 p q) (fst res)); cbn [fst]; lia. }
    clearbody res'.
    destruct (IH res') as (A & B & C); [lia|intros x X; apply T; now right|].
    destruct (strip_inner_c p tmp res') as [r c]. cbn [fst snd] in *. split; [exact A|]. split; [lia|].
    assert (N : near (py p) q = true) by (apply near_spec; split; [lia|split; lia]). cbn [filter]. rewrite N. cbn [length]. lia.
  Qed.
  Lemma filter_prefix (f : pt -> bool) l1 l2 : (length (filter f l1) <= length (filter f (l1 ++ l2)))%nat.
  Proof. rewrite filter_app, app_length. lia. Qed.
  Lemma strip_loop_cost pts K : StronglySorted y_le pts -> (forall y, (length (filter (near y) pts) <= K)%nat) ->
    forall rest done tmp res, pts = done ++ rest -> fst res <= d0 ->
    (forall q, In q tmp -> In q done /\ (px q - mx) * (px q - mx) < d0) ->
    (forall f, (length (filter f tmp) <= length (filter f done))%nat) ->
    fst (strip_loop_c mx rest tmp res) = strip_loop mx rest tmp res /\
    (snd (strip_loop_c mx rest tmp res) <= (2 * K + 2) * length rest)%nat.
  Proof.
    intros SY PK. induction rest as [|p rest IH]; intros done tmp res E D T F; [cbn; split; [reflexivity|lia]|].
    assert (Low : forall q, In q done -> py q <= py p).
    { intros q Q. rewrite E in SY. apply sorted_split in SY as (_ & _ & SY). apply (SY q p Q). now left. }
    assert (E' : pts = (done ++ [p]) ++ rest) by (rewrite <- app_assoc; exact E).
    cbn [strip_loop_c strip_loop]. rewrite lt_dist_spec by lia.
    rewrite <- Z.abs_mul, (Z.abs_eq ((px p - mx) * (px p - mx))) by apply Z.square_nonneg.
    destruct (Z.ltb_spec ((px p - mx) * (px p - mx)) (fst res)) as [H|H].
    - destruct (strip_inner_cost p tmp res D) as (A & B & C).
      { intros q Q. destruct (T q Q) as [T1 T2]. split; [exact T2|now apply Low]. }
      destruct (strip_inner_c p tmp res) as [r c]. cbn [fst snd] in A, C. subst r.
      destruct (IH (done ++ [p]) (p :: tmp) (strip_inner p tmp res) E') as [A' B']; [lia| | |].
      + intros q [<-|Q]; [split; [apply in_app_iff; right; now left|lia]|]. destruct (T q Q). split; [apply in_app_iff; now left|assumption].
      + intros f. rewrite filter_app, app_length. specialize (F f). cbn. destruct (f p); cbn; lia.
      + destruct (strip_loop_c mx rest (p :: tmp) (strip_inner p tmp res)) as [r c']. cbn [fst snd] in *. split; [exact A'|].
        pose proof (F (near (py p))). pose proof (filter_prefix (near (py p)) done (p :: rest)). rewrite <- E in *. specialize (PK (py p)). cbn [length]. lia.
    - destruct (IH (done ++ [p]) tmp res E') as [A' B']; [lia| | |].
      + intros q Q. destruct (T q Q). split; [apply in_app_iff; now left|assumption].
      + intros f. pose proof (filter_prefix f done [p]). specialize (F f). lia.
      + destruct (strip_loop_c mx rest tmp res) as [r c']. cbn [fst snd] in *. split; [exact A'|]. cbn [length]. lia.
  Qed.
  (** A box of half the distance holds one point. *)
  Lemma filter_refine {A} (f g : A -> bool) l :
    (length (filter f l) = length (filter (fun x => f x && g x) l) + length (filter (fun x => f x && negb (g x)) l))%nat.
  Proof. induction l as [|x l IH]; [reflexivity|]. cbn. destruct (f x), (g x); cbn; lia. Qed.
  Lemma one_of (R : pt -> pt -> Prop) (f : pt -> bool) l : all_pairs R l ->
    (forall a b, In a l -> In b l -> f a = true -> f b = true -> ~ R a b) -> (length (filter f l) <= 1)%nat.
  Proof.
    induction 1 as [|a l H _ IH]; intros N; [cbn; lia|]. cbn [filter]. destruct (f a) eqn:Fa.
    - assert (Z0 : filter f l = []).
      { destruct (filter f l) as [|b r] eqn:Ef; [reflexivity|]. exfalso.
        assert (I : In b (filter f l)) by (rewrite Ef; now left). apply filter_In in I as [I Fb].
        rewrite Forall_forall in H. apply (N a b); auto; [now left|now right]. }
      rewrite Z0. cbn. lia.
    - apply IH. intros; apply N; auto; now right.
  Qed.
  Lemma half_diff a b u : 0 <= a -> 0 <= b -> a * a < u -> b * b < u ->
    (4 * (a * a) <? u) = (4 * (b * b) <? u) -> 4 * ((a - b) * (a - b)) < u.
  Proof.
    intros A B HA HB. assert (Sym : forall x y, 0 <= x <= y -> y * y < u -> (4 * (x * x) <? u) = (4 * (y * y) <? u) -> 4 * ((y - x) * (y - x)) < u).
    { intros x y XY Y. destruct (Z.ltb_spec (4 * (x * x)) u), (Z.ltb_spec (4 * (y * y)) u); try discriminate; intros _; [nia|].
      assert (0 <= 2 * x - y). { destruct (Z_lt_dec (2 * x) y); [|lia]. nia. } nia. }
    intros E. destruct (Z_le_gt_dec a b).
    - specialize (Sym a b ltac:(lia) HB E). replace ((a - b) * (a - b)) with ((b - a) * (b - a)) by ring. exact Sym.
    - apply Sym; [lia|exact HA|now symmetry].
  Qed.
  Lemma packing l y : all_pairs (fun a b => d0 <= dist2 a b) l -> ((forall q, In q l -> px q <= mx) \/ (forall q, In q l -> mx <= px q)) ->
    (length (filter (near y) l) <= 4)%nat.
  Proof.
    intros AP SD.
    set (gx := fun q => 4 * ((px q - mx) * (px q - mx)) <? d0). set (gy := fun q => 4 * ((y - py q) * (y - py q)) <? d0).
    assert (Box : forall a b, In a l -> In b l -> near y a = true -> near y b = true -> gx a = gx b -> gy a = gy b -> ~ d0 <= dist2 a b).
    { intros a b Ia Ib Na Nb Ex Ey. apply near_spec in Na as (A1 & A2 & A3), Nb as (B1 & B2 & B3). unfold gx in Ex. unfold gy in Ey.
      assert (HX : 4 * ((px a - px b) * (px a - px b)) < d0).
      { destruct SD as [SD|SD]; pose proof (SD a Ia); pose proof (SD b Ib).
        - replace ((px a - px b) * (px a - px b)) with (((mx - px a) - (mx - px b)) * ((mx - px a) - (mx - px b))) by ring.
          replace ((px a - mx) * (px a - mx)) with ((mx - px a) * (mx - px a)) in * by ring.
          replace ((px b - mx) * (px b - mx)) with ((mx - px b) * (mx - px b)) in * by ring. apply half_diff; auto; lia.
        - replace ((px a - px b) * (px a - px b)) with (((px a - mx) - (px b - mx)) * ((px a - mx) - (px b - mx))) by ring.
          apply half_diff; auto; lia. }
      assert (HY : 4 * (((y - py a) - (y - py b)) * ((y - py a) - (y - py b))) < d0) by (apply half_diff; auto; lia).
      replace (((y - py a) - (y - py b)) * ((y - py a) - (y - py b))) with ((py a - py b) * (py a - py b)) in HY by ring.
      unfold dist2. pose proof (Z.square_nonneg (px a - px b)). pose proof (Z.square_nonneg (py a - py b)). lia. }
    assert (Q : forall h : pt -> bool, (forall a b, h a = true -> h b = true -> near y a = true /\ near y b = true /\ gx a = gx b /\ gy a = gy b) -> (length (filter h l) <= 1)%nat).
    { intros h Hh. apply (one_of _ h l AP). intros a b Ia Ib Ha Hb. destruct (Hh a b Ha Hb) as (N1 & N2 & X & Y). now apply Box. }
    rewrite (filter_refine (near y) gx). rewrite (filter_refine (fun x => near y x && gx x) gy), (filter_refine (fun x => near y x && negb (gx x)) gy).
    pose proof (Q (fun x => near y x && gx x && gy x)) as Q1. pose proof (Q (fun x => near y x && gx x && negb (gy x))) as Q2.
    pose proof (Q (fun x => near y x && negb (gx x) && gy x)) as Q3. pose proof (Q (fun x => near y x && negb (gx x) && negb (gy x))) as Q4.
    assert (S1 : forall a b, near y a && gx a && gy a = true -> near y b && gx b && gy b = true -> near y a = true /\ near y b = true /\ gx a = gx b /\ gy a = gy b).
    { intros a b. destruct (near y a), (near y b), (gx a), (gx b), (gy a), (gy b); cbn; auto; discriminate. }
    assert (S2 : forall a b, near y a && gx a && negb (gy a) = true -> near y b && gx b && negb (gy b) = true -> near y a = true /\ near y b = true /\ gx a = gx b /\ gy a = gy b).
    { intros a b. destruct (near y a), (near y b), (gx a), (gx b), (gy a), (gy b); cbn; auto; discriminate. }
    assert (S3 : forall a b, near y a && negb (gx a) && gy a = true -> near y b && negb (gx b) && gy b = true -> near y a = true /\ near y b = true /\ gx a = gx b /\ gy a = gy b).
    { intros a b. destruct (near y a), (near y b), (gx a), (gx b), (gy a), (gy b); cbn; auto; discriminate. }
    assert (S4 : forall a b, near y a && negb (gx a) && negb (gy a) = true -> near y b && negb (gx b) && negb (gy b) = true -> near y a = true /\ near y b = true /\ gx a = gx b /\ gy a = gy b).
    { intros a b. destruct (near y a), (near y b), (gx a), (gx b), (gy a), (gy b); cbn; auto; discriminate. }
    specialize (Q1 S1). specialize (Q2 S2). specialize (Q3 S3). specialize (Q4 S4). lia.
  Qed.
End Strip.
Lemma filter_perm_length {A} (f : A -> bool) l l' : Permutation l l' -> length (filter f l) = length (filter f l').
Proof. induction 1; cbn; repeat match goal with |- context [if f ?x then _ else _] => destruct (f x) end; cbn; lia. Qed.
Lemma all_pairs_weaken (R R' : pt -> pt -> Prop) l : (forall a b, R a b -> R' a b) -> all_pairs R l -> all_pairs R' l.
Proof. intros H. induction 1; constructor; auto. eapply Forall_impl; [|eassumption]. auto. Qed.
Lemma nearest_rec_cost : forall fuel points, (2 <= length points)%nat -> (length points <= fuel)%nat -> StronglySorted x_le points ->
  exists res pts c, nearest_rec fuel points = Ok (res, pts) /\ nearest_rec_c fuel points = Ok (res, pts, c) /\
  (c <= 19 * length points * Nat.log2_up (length points))%nat.
Proof.
  induction fuel as [|fuel IH]; intros points L2 LF S; [lia|].
  cbn [nearest_rec nearest_rec_c]. destruct (Nat.leb_spec (length points) 3) as [H|H].
  - eexists _, _, _. split; [reflexivity|]. split; [reflexivity|].
    destruct points as [|a [|b [|c [|d r]]]]; cbn [length] in *; try lia; cbn; lia.
  - set (n := length points) in *. set (m := (n / 2)%nat).
    assert (M : (2 <= m)%nat /\ (m + 2 <= n)%nat /\ (m <= n - m)%nat).
    { unfold m. pose proof (Nat.div_mod n 2 ltac:(lia)). pose proof (Nat.mod_upper_bound n 2 ltac:(lia)). lia. }
    assert (L1 : length (firstn m points) = m) by (rewrite firstn_length; fold n; lia).
    assert (L3 : length (skipn m points) = (n - m)%nat) by (rewrite skipn_length; reflexivity).
    pose proof (firstn_skipn m points) as FS. rewrite <- FS in S. apply sorted_split in S as (S1 & S3 & SX).
    destruct (nearest_rec_spec fuel (firstn m points)) as (lres & lp & E1 & P1 & Y1 & V1 & T1); auto; [lia|lia|].
    destruct (nearest_rec_spec fuel (skipn m points)) as (rres & rp & E3 & P3 & Y3 & V3 & T3); auto; [lia|lia|].
    destruct (IH (firstn m points)) as (lres' & lp' & c1 & E1' & G1 & C1); auto; [lia|lia|]. rewrite E1 in E1'. injection E1' as <- <-.
    destruct (IH (skipn m points)) as (rres' & rp' & c2 & E3' & G3 & C3); auto; [lia|lia|]. rewrite E3 in E3'. injection E3' as <- <-.
    rewrite E1, E3, G1, G3. cbn [bind fst snd]. set (mx := px (nth m points (P 0 0))). set (res := if fst rres <? fst lres then rres else lres).
    set (pts := merge_by y_comp lp rp).
    assert (PP : Permutation pts (lp ++ rp)) by apply merge_by_perm.
    assert (LP : length pts = n).
    { rewrite (Permutation_length PP), app_length, (Permutation_length P1), (Permutation_length P3). lia. }
    assert (RL : fst res <= fst lres /\ fst res <= fst rres).
    { unfold res. destruct (Z.ltb_spec (fst rres) (fst lres)); lia. }
    assert (Mid : exists r3, skipn m points = nth m points (P 0 0) :: r3) by (apply skipn_head; fold n; lia).
    destruct Mid as [r3 Mid].
    assert (SYM : forall a b, fst res <= dist2 a b -> fst res <= dist2 b a) by (intros a b; now rewrite dist2_sym).
    assert (A1 : all_pairs (fun a b => fst res <= dist2 a b) lp).
    { eapply all_pairs_perm; [exact SYM|symmetry; exact P1|]. eapply all_pairs_weaken; [|exact T1]. cbn. intros; lia. }
    assert (A3 : all_pairs (fun a b => fst res <= dist2 a b) rp).
    { eapply all_pairs_perm; [exact SYM|symmetry; exact P3|]. eapply all_pairs_weaken; [|exact T3]. cbn. intros; lia. }
    assert (X1 : forall q, In q lp -> px q <= mx).
    { intros q Q. unfold mx. apply SX; [now apply (Permutation_in _ P1)|rewrite Mid; now left]. }
    assert (X3 : forall q, In q rp -> mx <= px q).
    { intros q Q. apply (Permutation_in _ P3) in Q. rewrite Mid in S3, Q. inversion S3 as [|? ? _ F]; subst.
      destruct Q as [<-|Q]; [unfold mx; lia|]. rewrite Forall_forall in F. now apply F. }
    destruct (strip_loop_cost mx (fst res) pts 8) with (rest := pts) (done := @nil pt) (tmp := @nil pt) (res := res) as [A B]; auto.
    + now apply merge_by_sorted.
    + intros y. rewrite (filter_perm_length _ _ _ PP), filter_app, app_length.
      pose proof (packing mx (fst res) lp y A1 (or_introl X1)). pose proof (packing mx (fst res) rp y A3 (or_intror X3)). lia.
    + lia.
    + intros q [].
    + destruct (strip_loop_c mx pts [] res) as [r c]. cbn [fst snd] in A, B. subst r.
      eexists _, _, _. split; [reflexivity|]. split; [reflexivity|]. rewrite LP in B. rewrite L1 in C1. rewrite L3 in C3.
      assert (G : (S (Nat.log2_up m) <= Nat.log2_up n)%nat) by (apply half_log; fold m; lia).
      assert (G' : (S (Nat.log2_up (n - m)) <= Nat.log2_up n)%nat) by (apply half_log; fold m; lia).
      set (h := Nat.log2_up n) in *. assert (B1 : (19 * m * Nat.log2_up m <= 19 * m * (h - 1))%nat) by (apply Nat.mul_le_mono_l; lia).
      assert (B2 : (19 * (n - m) * Nat.log2_up (n - m) <= 19 * (n - m) * (h - 1))%nat) by (apply Nat.mul_le_mono_l; lia).
      assert (ES : (19 * m * (h - 1) + 19 * (n - m) * (h - 1) = 19 * n * (h - 1))%nat).
      { rewrite <- Nat.mul_add_distr_r. f_equal. lia. }
      assert (EH : (19 * n * h = 19 * n * (h - 1) + 19 * n)%nat).
      { replace h with (S (h - 1)) at 1 by lia. rewrite Nat.mul_succ_r. reflexivity. }
      lia.
Qed.
Lemma nearest_cost points : omap fst (nearest_pair_c points) = nearest_pair points /\
  forall r c, nearest_pair_c points = Ok (r, c) -> (c <= length points + 19 * length points * Nat.log2_up (length points))%nat.
Proof.
  unfold nearest_pair_c, nearest_pair. destruct (Z.ltb_spec 1 (Z.of_nat (length points))) as [L|L]; cbn [negb]; [|split; [reflexivity|discriminate]].
  assert (PS : Permutation (sort pless points) points) by apply sort_perm.
  assert (SS : StronglySorted below (sort pless points)).
  { apply sort_sorted; [intros x y H; now apply sbelow_below, pless_true | intros x y H; now apply pless_false | apply below_trans]. }
  destruct (adjacent_equal (sort pless points)) as [pq|].
  { split; [reflexivity|]. intros r c X. injection X as _ <-. lia. }
  assert (SX : StronglySorted x_le (sort pless points)).
  { clear -SS. induction SS as [|x l S IH F]; constructor; auto. eapply Forall_impl; [|exact F]. unfold below, x_le. intros; lia. }
  pose proof (Permutation_length PS) as LS.
  destruct (nearest_rec_cost (length (sort pless points)) (sort pless points)) as (res & pts & c & E & G & B); auto; [lia|].
  rewrite E, G. cbn [bind omap fst]. split; [reflexivity|]. intros r c' X. injection X as _ <-. rewrite LS in B. lia.
Qed.
