(** Proofs about floating point points on a grid: FPolyModel.v. *)
From Coq Require Import ZArith QArith Qpower Qabs List Bool Lia Lqa Permutation.
From Verif Require Import Outcome FGeoModel FGeoProofs PropFGeo GeoModel HullProofs PolyModel MGeoProofs FPolyModel.
Import ListNotations.
Local Open Scope Z_scope.

(** The point with coordinates [x 2^e] and [y 2^e]. *)
Definition grid (e : Z) (p : pt) : fpt :=
  FP (Fin (inject_Z (px p) * 2 ^ e)%Q) (Fin (inject_Z (py p) * 2 ^ e)%Q).

Section Compare.
  Variable e : Z.
  Let c (x : Z) : num := Fin (inject_Z x * 2 ^ e)%Q.
  Lemma scale_compare x y : Qcompare (inject_Z x * 2 ^ e) (inject_Z y * 2 ^ e) = Z.compare x y.
  Proof.
    pose proof (two_pos e) as P. symmetry. destruct (Z.compare_spec x y) as [->|L|L]; symmetry.
    - apply Qeq_alt. reflexivity.
    - apply Qlt_alt. apply Qmult_lt_compat_r; [exact P|]. now rewrite <- Zlt_Qlt.
    - apply Qgt_alt. apply Qmult_lt_compat_r; [exact P|]. now rewrite <- Zlt_Qlt.
  Qed.
  Lemma nless_grid x y : nless (c x) (c y) = (x <? y).
  Proof. unfold c, nless, Z.ltb. now rewrite scale_compare. Qed.
  Lemma neq_grid x y : neq (c x) (c y) = (x =? y).
  Proof. unfold c, neq. rewrite scale_compare. rewrite Z.eqb_compare. reflexivity. Qed.
  Lemma ncompare_grid x y : ncompare (c x) (c y) = Z.sgn (x - y).
  Proof. unfold ncompare. rewrite !nless_grid. destruct (Z.ltb_spec x y), (Z.ltb_spec y x); lia. Qed.
  Lemma fpless_grid a b : fpless (grid e a) (grid e b) = pless a b.
  Proof.
    unfold fpless, grid. cbn [fx fy]. fold (c (px a)) (c (px b)) (c (py a)) (c (py b)). rewrite !ncompare_grid.
    unfold pless. destruct (Z.eqb_spec (Z.sgn (px a - px b)) 0), (Z.eqb_spec (px a) (px b)); lia.
  Qed.
  Lemma fpeq_grid a b : fpeq (grid e a) (grid e b) = peq a b.
  Proof. unfold fpeq, grid. cbn [fx fy]. fold (c (px a)) (c (px b)) (c (py a)) (c (py b)). now rewrite !neq_grid. Qed.
  Lemma fy_compare_grid a b : fy_compare (grid e a) (grid e b) = y_compare a b.
  Proof.
    unfold fy_compare, grid. cbn [fx fy]. fold (c (px a)) (c (px b)) (c (py a)) (c (py b)). rewrite ncompare_grid, nless_grid.
    unfold y_compare. destruct (Z.eqb_spec (Z.sgn (py a - py b)) 0), (Z.eqb_spec (py a) (py b)); lia.
  Qed.
  Lemma fpgreater_grid a b : fpgreater (grid e a) (grid e b) = pgreater a b.
  Proof. apply fpless_grid. Qed.
End Compare.

(** ** Lists of grid points *)
Section Lists.
  Variable e : Z.
  Local Notation g := (grid e).
  Lemma filter_grid (p : pt -> bool) (q : fpt -> bool) l : (forall x, In x l -> q (g x) = p x) ->
    filter q (map g l) = map g (filter p l).
  Proof.
    induction l as [|x l IH]; intros E; [reflexivity|]. cbn [map filter]. rewrite E by now left.
    rewrite IH by (intros; apply E; now right). now destruct (p x).
  Qed.
  Lemma fsort_grid (lt : pt -> pt -> bool) (flt : fpt -> fpt -> bool) (D : list pt) :
    (forall a b, In a D -> In b D -> flt (g a) (g b) = lt a b) ->
    forall l, incl l D -> fsort flt (map g l) = map g (sort lt l).
  Proof.
    intros E. assert (I : forall x l, In x D -> incl l D -> finsert flt (g x) (map g l) = map g (insert lt x l)).
    { intros x l Ix. induction l as [|y l IH]; intros Il; [reflexivity|]. cbn [map finsert insert].
      rewrite E by (auto; apply Il; now left). destruct (lt y x); [|reflexivity]. cbn [map].
      rewrite IH; [reflexivity|]. intros q Q. apply Il. now right. }
    induction l as [|x l IH]; intros Il; [reflexivity|]. cbn [map fsort sort fold_right].
    fold (fsort flt (map g l)). fold (sort lt l). rewrite IH by (intros q Q; apply Il; now right).
    apply I; [apply Il; now left|]. intros q Q. apply Il. right.
    apply (Permutation_in q (sort_perm lt l)). exact Q.
  Qed.
  Lemma fmin_grid l : forall p, fmin_point (g p) (map g l) = g (min_point p l).
  Proof. induction l as [|q l IH]; intros p; [reflexivity|]. cbn [map fmin_point min_point]. rewrite fpless_grid. destruct (pless q p); apply IH. Qed.
  Lemma fmax_grid l : forall p, fmax_point (g p) (map g l) = g (max_point p l).
  Proof. induction l as [|q l IH]; intros p; [reflexivity|]. cbn [map fmax_point max_point]. rewrite fpless_grid. destruct (pless q p); apply IH. Qed.
  Lemma fcyc_grid poly i : poly <> [] -> fcyc (map g poly) i = g (cyc poly i).
  Proof.
    intros N. unfold fcyc, cyc. rewrite map_length.
    assert (0 <= i mod Z.of_nat (length poly) < Z.of_nat (length poly)).
    { apply Z.mod_pos_bound. destruct poly; [easy|]. cbn [length]. lia. }
    rewrite (nth_indep _ fzero (g (P 0 0))) by (rewrite map_length; lia). apply map_nth.
  Qed.
  Lemma fvertex_grid poly i : (i < length poly)%nat -> fvertex (map g poly) i = g (vertex poly i).
  Proof.
    intros L. unfold fvertex, vertex. rewrite (nth_indep _ fzero (g (P 0 0))) by now rewrite map_length. apply map_nth.
  Qed.
  Lemma flower_grid l p : flower_bound fpless (map g l) (g p) = lower_bound pless l p.
  Proof. induction l as [|v l IH]; [reflexivity|]. cbn [map flower_bound lower_bound]. rewrite fpless_grid. rewrite IH. reflexivity. Qed.
  Lemma fmin_index_grid l : forall i b v, fmin_index fpless (map g l) i b (g v) = min_index pless l i b v.
  Proof.
    induction l as [|w l IH]; intros i b v; [reflexivity|]. cbn [map fmin_index min_index]. rewrite fpless_grid.
    now rewrite !IH.
  Qed.
End Lists.

(** ** Arithmetic on a grid *)
Section Arith.
  Variable f : format.
  Variable e : Z.
  Hypothesis Hp : 1 <= prec f.
  (** [q] is [m 2^s]. *)
  Let at_ (s m : Z) (n : num) : Prop := exists q, n = Fin q /\ (q == inject_Z m * 2 ^ s)%Q.
  Lemma at_grid m : at_ e m (Fin (inject_Z m * 2 ^ e)%Q).
  Proof. eexists. split; reflexivity. Qed.
  Lemma exact_at s m q : (q == inject_Z m * 2 ^ s)%Q -> Z.abs m <= 2 ^ prec f -> emin f <= s -> prec f + s < emax f ->
    at_ s m (to_num f q).
  Proof.
    intros E M S1 S2. destruct (to_num_exact f Hp q) as (q' & E1 & E2).
    - apply representable_eq with (inject_Z m * 2 ^ s)%Q; [now rewrite E | now apply representable_int].
    - assert (Ub : (inject_Z (Z.abs m) * 2 ^ s <= 2 ^ (prec f + s))%Q).
      { rewrite two_plus, <- (two_Z (prec f)) by lia.
        apply Qmult_le_compat_r; [rewrite <- Zle_Qle; exact M | apply Qlt_le_weak, two_pos]. }
      pose proof (Qpower_lt_compat_l 2 _ _ S2 eq_refl).
      rewrite E, Qabs_Qmult, (Qabs_pos (2 ^ s)) by apply Qlt_le_weak, two_pos.
      change (Qabs (inject_Z m)) with (inject_Z (Z.abs m)). lra.
    - exists q'. split; [exact E1 | now rewrite E2, E].
  Qed.
  Lemma fadd_at s a b x y : at_ s a x -> at_ s b y -> Z.abs (a + b) <= 2 ^ prec f -> emin f <= s -> prec f + s < emax f ->
    at_ s (a + b) (fadd f x y).
  Proof.
    intros (q & -> & E) (r & -> & F) M S1 S2. cbn [fadd]. apply exact_at; auto. rewrite E, F, inject_Z_plus. ring.
  Qed.
  Lemma fsub_at s a b x y : at_ s a x -> at_ s b y -> Z.abs (a - b) <= 2 ^ prec f -> emin f <= s -> prec f + s < emax f ->
    at_ s (a - b) (fsub f x y).
  Proof.
    intros (q & -> & E) (r & -> & F) M S1 S2. cbn [fadd fsub neg_num]. unfold fsub. cbn [fadd neg_num]. apply exact_at; auto.
    rewrite E, F, <- Z.add_opp_r, inject_Z_plus, inject_Z_opp. ring.
  Qed.
  Lemma fmul_at s t a b x y : at_ s a x -> at_ t b y -> Z.abs (a * b) <= 2 ^ prec f -> emin f <= s + t -> prec f + (s + t) < emax f ->
    at_ (s + t) (a * b) (fmul f x y).
  Proof.
    intros (q & -> & E) (r & -> & F) M S1 S2. cbn [fmul]. apply exact_at; auto. rewrite E, F, two_plus, inject_Z_mult. ring.
  Qed.
  Lemma scaled_sgn m s : qsgn (inject_Z m * 2 ^ s) = Z.sgn m.
  Proof.
    assert (Z0 : (0 == inject_Z 0 * 2 ^ s)%Q) by (change (inject_Z 0) with 0%Q; ring).
    unfold qsgn. rewrite (Qcompare_comp _ _ (Qeq_refl _) _ _ Z0), scale_compare.
    destruct (Z.compare_spec m 0); lia.
  Qed.
  (** The sign of a difference of two numbers on the grid is exact, whatever their size. *)
  Lemma fsub_sgn_at s a b x y : at_ s a x -> at_ s b y -> emin f <= s -> prec f + s < emax f -> fsgn (fsub f x y) = Z.sgn (a - b).
  Proof.
    intros (q & -> & E) (r & -> & F) S1 S2. unfold fsub. cbn [fadd neg_num].
    assert (D : (q + - r == inject_Z (a - b) * 2 ^ s)%Q) by (rewrite E, F, <- Z.add_opp_r, inject_Z_plus, inject_Z_opp; ring).
    destruct (to_num_sgn f Hp (q + - r)) as [Z0|Z0]; [|rewrite Z0, (qsgn_eq _ _ D); apply scaled_sgn].
    rewrite Z0. destruct (Z_le_gt_dec (Z.abs (a - b)) (2 ^ prec f)) as [M|M].
    - destruct (exact_at s (a - b) _ D M S1 S2) as (z & E1 & E2). rewrite E1 in Z0. cbn [fsgn] in Z0.
      change (qsgn z = 0) in Z0. rewrite (qsgn_eq _ _ E2), scaled_sgn in Z0. now rewrite Z0.
    - exfalso. apply (to_num_nonzero f Hp) in Z0. rewrite D, Qabs_Qmult, (Qabs_pos (2 ^ s)) in Z0 by apply Qlt_le_weak, two_pos.
      change (Qabs (inject_Z (a - b))) with (inject_Z (Z.abs (a - b))) in Z0.
      assert (2 <= Z.abs (a - b)).
      { assert (2 ^ 1 <= 2 ^ prec f) by (apply Z.pow_le_mono_r; lia). change (2 ^ 1) with 2 in *. lia. }
      assert (L : (inject_Z 2 * 2 ^ s <= inject_Z (Z.abs (a - b)) * 2 ^ s)%Q)
        by (apply Qmult_le_compat_r; [now rewrite <- Zle_Qle | apply Qlt_le_weak, two_pos]).
      pose proof (two_le _ _ S1). pose proof (two_pos s). change (inject_Z 2) with 2%Q in L. lra.
  Qed.

  Hypothesis He : emin f <= e.
  Hypothesis He2 : emin f <= e + e.
  Hypothesis Hm : prec f + e < emax f.
  Hypothesis Hm2 : prec f + (e + e) < emax f.

  Lemma forient_grid l r : Z.abs (px r * py l) <= 2 ^ prec f -> Z.abs (py r * px l) <= 2 ^ prec f ->
    forient f (grid e l) (grid e r) = orient l r.
  Proof.
    intros A B. unfold forient, farea, grid, orient, area. cbn [fx fy].
    apply (fsub_sgn_at (e + e)); auto; apply fmul_at; auto using at_grid.
  Qed.
  Lemma forient3_grid l r o x0 y0 W H : in_box x0 y0 W H l -> in_box x0 y0 W H r -> in_box x0 y0 W H o ->
    W <= 2 ^ prec f -> H <= 2 ^ prec f -> W * H <= 2 ^ prec f ->
    forient3 f (grid e l) (grid e r) (grid e o) = orient3 l r o.
  Proof.
    intros L R O HW HH HA. destruct l as [lx ly], r as [rx ry], o as [ox oy].
    apply (C115_grid f e lx ly rx ry ox oy x0 y0 W H); auto.
    intros p [<-|[<-|[<-|[]]]]; auto.
  Qed.

  (** Area of a polygon. *)
  Lemma farea_loop_at poly X Y : poly <> [] ->
    (forall p, In p poly -> Z.abs (px p) <= X /\ Z.abs (py p) <= Y) -> 2 * Y <= 2 ^ prec f ->
    forall n i res r, at_ (e + e) res r -> Z.abs res + Z.of_nat n * (2 * (X * Y)) <= 2 ^ prec f ->
    at_ (e + e) (area_loop poly n i res) (farea_loop f (map (grid e) poly) n i r).
  Proof.
    intros N B HY. induction n as [|n IH]; intros i res r At HT; [exact At|].
    cbn [farea_loop area_loop]. rewrite !fcyc_grid by assumption. cbn [fx fy grid].
    destruct (B _ (cyc_In poly (i + 1) N)) as [_ B1]. destruct (B _ (cyc_In poly (i - 1) N)) as [_ B2].
    destruct (B _ (cyc_In poly i N)) as [B0 _].
    set (d := py (cyc poly (i + 1)) - py (cyc poly (i - 1))) in *.
    assert (Hd : Z.abs d <= 2 * Y) by lia.
    pose proof (abs_mul_le _ _ _ _ B0 Hd) as M. replace (X * (2 * Y)) with (2 * (X * Y)) in M by ring.
    assert (0 <= X * Y) by (apply Z.mul_nonneg_nonneg; lia).
    rewrite Nat2Z.inj_succ in HT.
    assert (0 <= Z.of_nat n * (2 * (X * Y))) by (apply Z.mul_nonneg_nonneg; lia).
    apply IH; [|lia].
    apply fadd_at; auto; [|lia]. apply fmul_at; auto using at_grid; [|lia]. apply fsub_at; auto using at_grid. fold d. lia.
  Qed.
  Lemma fpolygon_area_at poly X Y :
    (forall p, In p poly -> Z.abs (px p) <= X /\ Z.abs (py p) <= Y) -> 2 * Y <= 2 ^ prec f ->
    Z.of_nat (length poly) * (2 * (X * Y)) <= 2 ^ prec f ->
    exists q, fpolygon_area f (map (grid e) poly) = Fin q /\ (q == inject_Z (polygon_area poly) * 2 ^ (e + e))%Q.
  Proof.
    intros B HY HT. unfold fpolygon_area, polygon_area. rewrite map_length. destruct poly as [|p l].
    - exists 0%Q. split; [reflexivity|]. cbn [length area_loop]. change (inject_Z 0) with 0%Q. ring.
    - apply farea_loop_at with (X := X) (Y := Y); auto; [discriminate|].
      exists 0%Q. split; [reflexivity|]. change (inject_Z 0) with 0%Q. ring.
  Qed.
End Arith.

(** ** Algorithms on the points of a box *)
Section Box.
  Variable f : format.
  Variable e : Z.
  Variable box : pt -> Prop.
  Hypothesis OR : forall l r o, box l -> box r -> box o -> forient3 f (grid e l) (grid e r) (grid e o) = orient3 l r o.
  Local Notation g := (grid e).

  Lemma fpop_grid p st : box p -> Forall box st -> fpop f (g p) (map g st) = map g (pop p st).
  Proof.
    intros Bp. induction st as [|a [|b st] IH]; intros F; cbn [map fpop pop]; try reflexivity.
    inversion F as [|? ? Fa F']; subst. inversion F' as [|? ? Fb F'']; subst.
    rewrite OR by assumption. destruct (_ =? _); [reflexivity|]. now apply IH.
  Qed.
  Lemma pop_boxed p st : Forall box st -> Forall box (pop p st).
  Proof.
    induction st as [|a [|b st] IH]; intros F; cbn [pop]; auto.
    destruct (_ =? _); [assumption|]. apply IH. now inversion F.
  Qed.
  Lemma fpush_all_grid l : forall st, Forall box st -> Forall box l ->
    fold_left (fpush f) (map g l) (map g st) = map g (fold_left push l st) /\ Forall box (fold_left push l st).
  Proof.
    induction l as [|p l IH]; intros st Fs Fl; cbn [map fold_left]; [now split|].
    inversion Fl; subst. unfold fpush at 2. rewrite fpop_grid by assumption.
    change (g p :: map g (pop p st)) with (map g (push st p)). apply IH; [|assumption].
    constructor; [assumption | now apply pop_boxed].
  Qed.
  Lemma fhull_grid pts : Forall box pts ->
    fconvex_hull f (map g pts) = do h <- convex_hull pts; Ok (map g h).
  Proof.
    intro F. destruct pts as [|p [|q ps]]; [reflexivity | reflexivity|].
    unfold fconvex_hull, convex_hull. rewrite Forall_forall in F.
    set (ps' := q :: ps) in *. set (pts := p :: ps') in *.
    assert (Ba : box (min_point p ps')) by (apply F, min_point_spec).
    assert (Bb : box (max_point p ps')) by (apply F, max_point_spec).
    pose proof (fmin_grid e ps' p) as Mi. pose proof (fmax_grid e ps' p) as Ma.
    change (map g pts) with (g p :: map g ps'). change (map g ps') with (g q :: map g ps) at 1.
    change (map g ps') with (g q :: map g ps) in Mi, Ma. unfold ps' at 1, pts at 1. cbv iota zeta beta.
    rewrite ?Mi, ?Ma. change (g p :: map g ps') with (map g pts). change (p :: ps') with pts.
    set (l := make_line (min_point p ps') (max_point p ps')).
    assert (C : forall x, In x pts -> negb (forient_pl f (g x) (fmake_line f (g (min_point p ps')) (g (max_point p ps'))) =? o_right)
      = negb (orient_pl x l =? o_right)).
    { intros x Hx. change (forient_pl f (g x) (fmake_line f (g (min_point p ps')) (g (max_point p ps'))))
        with (forient3 f (g x) (g (max_point p ps')) (g (min_point p ps'))).
      rewrite OR by auto. reflexivity. }
    rewrite (filter_grid e (fun q => negb (orient_pl q l =? o_right))) by exact C.
    rewrite (filter_grid e (fun q => negb (negb (orient_pl q l =? o_right)))) by (intros x Hx; now rewrite C).
    set (lo := filter _ pts). set (up := filter _ pts).
    rewrite (fsort_grid e pless fpless lo) by (auto using fpless_grid; apply incl_refl).
    rewrite (fsort_grid e pgreater fpgreater up) by (auto using fpgreater_grid; apply incl_refl).
    assert (Fl : Forall box (sort pless lo)).
    { apply Forall_forall. intros x Hx. apply (Permutation_in x (sort_perm pless lo)) in Hx. apply filter_In in Hx. now apply F. }
    assert (Fu : Forall box (sort pgreater up)).
    { apply Forall_forall. intros x Hx. apply (Permutation_in x (sort_perm pgreater up)) in Hx. apply filter_In in Hx. now apply F. }
    destruct (sort pless lo) as [|p0 [|p1 rest]]; try reflexivity. cbn [map].
    pose proof (Forall_inv Fl) as F0. apply Forall_inv_tail in Fl.
    pose proof (Forall_inv Fl) as F1. apply Forall_inv_tail in Fl. rename Fl into Fr.
    destruct (fpush_all_grid (rest ++ sort pgreater up) [p1; p0]) as [E Fs].
    { apply Forall_cons; [|apply Forall_cons]; auto. }
    { apply Forall_app. now split. }
    rewrite <- map_app. change [g p1; g p0] with (map g [p1; p0]). rewrite E, fpop_grid by assumption.
    cbn [bind]. f_equal. rewrite map_rev. f_equal.
    destruct (pop p0 (fold_left push (rest ++ sort pgreater up) [p1; p0])) as [|a [|b [|c s]]]; try reflexivity.
    cbn [map]. rewrite fpeq_grid. now destruct (peq b a).
  Qed.

  Lemma fedge_grid p a b : box p -> box a -> box b -> fedge_step f (g p) (g a) (g b) = edge_step p a b.
  Proof.
    intros Bp Ba Bb. unfold fedge_step, edge_step. rewrite fpeq_grid.
    rewrite (OR p b a) by assumption. cbn [fx fy grid]. now rewrite !neq_grid, !nless_grid.
  Qed.
  Lemma fwinding_grid p poly : box p -> Forall box poly -> fwinding_number f (g p) (map g poly) = winding_number p poly.
  Proof.
    intros Bp F. rewrite Forall_forall in F. unfold fwinding_number, winding_number. rewrite map_length.
    destruct poly as [|a [|b poly]]; [reflexivity| |].
    - cbn [map]. now rewrite fpeq_grid.
    - change (map g (a :: b :: poly)) with (g a :: g b :: map g poly).
      change (g a :: g b :: map g poly) with (map g (a :: b :: poly)).
      set (l := a :: b :: poly) in *. assert (N : l <> []) by discriminate.
      enough (K : forall n i res, fwinding_loop f (g p) (map g l) n i res = winding_loop p l n i res).
      { unfold l at 1. cbn [map]. apply K. }
      induction n as [|n IH]; intros i res; [reflexivity|]. cbn [fwinding_loop winding_loop].
      rewrite !fcyc_grid by assumption.
      rewrite fedge_grid by (auto; apply F, cyc_In; assumption). now destruct (edge_step _ _ _).
  Qed.
  Lemma fwithin_simple_grid p poly : box p -> Forall box poly -> fwithin_simple f (g p) (map g poly) = within_simple p poly.
  Proof. intros B F. unfold fwithin_simple, within_simple. now rewrite fwinding_grid. Qed.
  Lemma fwithin_triangle_grid p poly : box p -> Forall box poly ->
    fwithin_triangle f (g p) (map g poly) = within_triangle p poly.
  Proof.
    intros B F. rewrite Forall_forall in F. unfold fwithin_triangle, within_triangle. rewrite map_length.
    destruct (Z.eqb_spec (Z.of_nat (length poly)) 3) as [E|E]; [|reflexivity]. cbn [negb].
    assert (N : poly <> []) by (intros ->; discriminate). cbv zeta.
    assert (S : forall i, forient3 f (g p) (fcyc (map g poly) (i + 1)) (fcyc (map g poly) i) = orient3 p (cyc poly (i + 1)) (cyc poly i)).
    { intros i. rewrite !fcyc_grid by assumption. apply OR; auto; apply F, cyc_In; assumption. }
    rewrite !S. cbn [existsb]. now rewrite !S.
  Qed.
  Lemma fvertex_rev poly i : (i < length poly)%nat -> fvertex (rev (map g poly)) i = g (vertex (rev poly) i).
  Proof. intros. rewrite <- map_rev. apply fvertex_grid. now rewrite rev_length. Qed.
  Lemma bound_le less l p : (lower_bound less l p <= length l)%nat.
  Proof. induction l as [|v l IH]; cbn; [lia|]. destruct (less v p); lia. Qed.
  Lemma in_vertex poly i : (i < length poly)%nat -> In (vertex poly i) poly.
  Proof. intros. now apply nth_In. Qed.
  Lemma ftests_grid p poly right : box p -> Forall box poly -> (0 < right < length poly)%nat ->
    flower_test f (g p) (map g poly) right = lower_test p poly right /\
    fupper_test f (g p) (map g poly) right = upper_test p poly right.
  Proof.
    intros B F R. rewrite Forall_forall in F. split.
    - unfold flower_test, lower_test. rewrite skipn_map, firstn_map. rewrite flower_grid.
      pose proof (bound_le pless (firstn (right - 1) (skipn 1 poly)) p) as L. rewrite firstn_length in L.
      rewrite !fvertex_grid by lia. apply OR; auto; apply F, in_vertex; lia.
    - unfold fupper_test, upper_test. rewrite <- map_rev, firstn_map, map_length. rewrite flower_grid.
      pose proof (bound_le pless (firstn (length poly - right - 1) (rev poly)) p) as L. rewrite firstn_length, rev_length in L.
      assert (V : fvertex (map g (rev poly)) (lower_bound pless (firstn (length poly - right - 1) (rev poly)) p)
        = g (vertex (rev poly) (lower_bound pless (firstn (length poly - right - 1) (rev poly)) p)))
        by (apply fvertex_grid; rewrite rev_length; lia).
      rewrite V. destruct (lower_bound _ _ _) as [|u].
      + rewrite fvertex_grid by lia. apply OR; auto; apply F; [apply in_vertex; lia|].
        apply in_rev, in_vertex. rewrite rev_length. lia.
      + assert (V2 : fvertex (map g (rev poly)) u = g (vertex (rev poly) u)) by (apply fvertex_grid; rewrite rev_length; lia).
        rewrite V2. apply OR; auto; apply F, in_rev, in_vertex; rewrite rev_length; lia.
  Qed.
  Lemma fwithin_grid p poly right : box p -> Forall box poly -> (0 < right < length poly)%nat ->
    fwithin_convex f (g p) (map g poly) right = within_convex p poly right /\
    fwithin_monotone f (g p) (map g poly) right = within_monotone p poly right.
  Proof.
    intros B F R. destruct (ftests_grid p poly right B F R) as [Lo Up]. rewrite Forall_forall in F.
    unfold fwithin_convex, within_convex, fwithin_monotone, within_monotone. rewrite Lo, Up.
    pose proof (fvertex_grid e poly right (proj2 R)) as V. rewrite V.
    destruct poly as [|v0 [|v1 poly]]; [cbn in R; lia..|]. rewrite map_length. cbn [map].
    rewrite !fpless_grid, !fpeq_grid, OR by (first [exact B | apply F; now left | apply F, in_vertex; lia]).
    split; reflexivity.
  Qed.
  Lemma forientation_grid poly : Forall box poly -> forientation_simple f (map g poly) = orientation_simple poly.
  Proof.
    intros F. rewrite Forall_forall in F. unfold forientation_simple, orientation_simple. destruct poly as [|v l]; [reflexivity|].
    cbn [map]. rewrite fmin_index_grid. change (g v :: map g l) with (map g (v :: l)).
    rewrite !fcyc_grid by discriminate. rewrite OR by (apply F, cyc_In; discriminate). reflexivity.
  Qed.
End Box.
